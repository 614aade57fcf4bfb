(** * Props_Lost: which field counts n concurrent HSets can leave (C155) *)
From stdpp Require Import relations.
From Verif Require Import Base GoFloat CacheModel CacheSpec CacheAbs CacheRefine CacheRefineH CacheMain CacheLib CacheConc ConcLin ConcSafe ConcDl ConcHash ConcLen.
From Verif Require Import Props_String Props_Counter Props_Hash Props_Conc Props_Conc4 Props_Conc5.

(** Goroutine i sets the i-th of the fields [fs], once; [i0] is the number of the first goroutine. *)
Fixpoint sets (k v : gostr) (i0 : nat) (fs : list gostr) : list event :=
  match fs with
  | [] => []
  | f :: r => EInv i0 (CHSet k f v) :: ERet i0 (RInt (1, None)) :: sets k v (S i0) r
  end.

Lemma wrap_in z : - 2 ^ 63 <= z < 2 ^ 63 -> wrap64 z = z.
Proof. intros H. apply Base.wrap64_id. unfold is_int64, min_int64, max_int64. apply andb_true_iff. split; apply Z.leb_le; lia. Qed.
Section lost.
Context (w0 : world) (k v : gostr) (l : positive) (d : gmap gostr gval) (e : gmap gostr Z).
Context (Hd : w_data w0 = Some d) (He : w_exp w0 = Some e) (Hk : d !! k = Some (VHash l)) (Hek : e !! k = None).
Definition wat (mp : gmap gostr gval) (len : Z) : world := set_heap w0 (<[l := HObj mp len]> (w_heap w0)).
Lemma wat_l mp len : w_heap (wat mp len) !! l = Some (HObj mp len). Proof. apply lookup_insert. Qed.
Lemma wat_set mp len mp' len' : set_heap (wat mp len) (<[l := HObj mp' len']> (w_heap (wat mp len))) = wat mp' len'.
Proof. unfold wat, set_heap. cbn. rewrite insert_insert. reflexivity. Qed.

(** the program of HSet at its five operations *)
Definition q1 (f : gostr) : prog reply := call_prog (CHSet k f v).
Definition q3 (f : gostr) : prog reply := pmap RInt (do n <- he_set l f v; Ret (n, None)).
Definition hset_rest (f : gostr) (h : hres) : prog (gret Z) :=
  match h with HWrong => Ret (0, Some ErrWrongType) | _ => do l <- get_or_new k h; do n <- he_set l f v; Ret (n, None) end.
Definition q2 (f : gostr) : prog reply :=
  pmap RInt (do h <- (do x <- (do b <- expired k; Ret (if b then None else Some (VHash l))); Ret match x with None => HNil | Some (VHash l) => HEntry l | Some _ => HWrong end); hset_rest f h).
Definition q4 : prog reply := pmap RInt (do n <- (do len <- h_get_len l; h_set_len l (wrap64 (len + 1));;; Ret 1); Ret (n, None)).
Definition q5 (n : Z) : prog reply := pmap RInt (do m <- (h_set_len l (wrap64 (n + 1));;; Ret 1); Ret (m, None)).
Definition q6 : prog reply := Ret (RInt (1, None)).
Definition go1 (p : prog reply) (w : world) (w' : world) (p' : prog reply) : Prop := exists g, p = Step g /\ g w = Go w' p'.
Lemma go_1 f mp len : go1 (q1 f) (wat mp len) (wat mp len) (q2 f).
Proof. eexists. split; [reflexivity|]. cbn. rewrite Hd, Hk. reflexivity. Qed.
Lemma go_2 f mp len : go1 (q2 f) (wat mp len) (wat mp len) (q3 f).
Proof. eexists. split; [reflexivity|]. cbn. rewrite He, Hek. reflexivity. Qed.
Lemma go_3 f mp len : mp !! f = None -> go1 (q3 f) (wat mp len) (wat (<[f := try_int64 v]> mp) len) q4.
Proof. intros Hf. eexists. split; [reflexivity|]. cbv beta. unfold h_load_or_store. cbn -[wat try_int64]. rewrite wat_l. cbn -[wat try_int64]. rewrite Hf, wat_set. reflexivity. Qed.
Lemma go_4 mp len : go1 q4 (wat mp len) (wat mp len) (q5 len).
Proof. eexists. split; [reflexivity|]. cbn -[wat wrap64]. rewrite wat_l. cbn -[wat wrap64]. rewrite wat_set. reflexivity. Qed.
Lemma go_5 mp len n : go1 (q5 n) (wat mp len) (wat mp (wrap64 (n + 1))) q6.
Proof. eexists. split; [reflexivity|]. cbn -[wat wrap64]. rewrite wat_l. cbn -[wat wrap64]. rewrite wat_set. reflexivity. Qed.
Lemma go_run p w w' p' i th : go1 p w w' p' -> cstep (ARun i) (Conf w (<[i := p]> th)) = Some (Conf w' (<[i := p']> th), []).
Proof. intros (g & -> & E). cbn. rewrite lookup_insert, E, insert_insert. reflexivity. Qed.

(** ** every count is possible *)
Lemma exec_a i f mp len th : th !! i = None -> mp !! f = None ->
  cexec (AInv i (CHSet k f v) :: runs i 4) (Conf (wat mp len) th) = Some (Conf (wat (<[f := try_int64 v]> mp) len) (<[i := q5 len]> th), [EInv i (CHSet k f v)]).
Proof.
  intros Hi Hf. cbn [cexec runs repeat]. unfold cstep at 1. cbn [c_th c_w]. rewrite Hi. change (call_prog (CHSet k f v)) with (q1 f).
  rewrite (go_run _ _ _ _ _ _ (go_1 f mp len)), (go_run _ _ _ _ _ _ (go_2 f mp len)), (go_run _ _ _ _ _ _ (go_3 f mp len Hf)), (go_run _ _ _ _ _ _ (go_4 _ len)). reflexivity.
Qed.
Lemma exec_b i n mp len th : th !! i = None ->
  cexec [ARun i; ARet i] (Conf (wat mp len) (<[i := q5 n]> th)) = Some (Conf (wat mp (wrap64 (n + 1))) th, [ERet i (RInt (1, None))]).
Proof.
  intros Hi. cbn [cexec]. rewrite (go_run _ _ _ _ _ _ (go_5 mp len n)). unfold cstep. cbn [c_th c_w]. rewrite lookup_insert. unfold q6. rewrite delete_insert by exact Hi. reflexivity.
Qed.
Definition stores (fs : list gostr) (mp : gmap gostr gval) : gmap gostr gval := fold_left (fun m f => <[f := try_int64 v]> m) fs mp.
(** all look up the length before any of them changes it *)
Fixpoint together (i : nat) (fs : list gostr) : list act :=
  match fs with [] => [] | f :: r => (AInv i (CHSet k f v) :: runs i 4) ++ together (S i) r ++ [ARun i; ARet i] end.
Lemma exec_together fs : forall i mp len th, NoDup fs -> (forall f, f ∈ fs -> mp !! f = None) -> (forall j, (i <= j)%nat -> th !! j = None) ->
  exists evs, cexec (together i fs) (Conf (wat mp len) th) = Some (Conf (wat (stores fs mp) (match fs with [] => len | _ => wrap64 (len + 1) end)) th, evs) /\ evs ≡ₚ sets k v i fs.
Proof.
  induction fs as [|f fs IH]; intros i mp len th Hn Hm Hi; [exists []; split; reflexivity|]. apply list.NoDup_cons in Hn as [Hf Hn].
  destruct (IH (S i) (<[f := try_int64 v]> mp) len (<[i := q5 len]> th) Hn) as (evs & E & P).
  { intros g Hg. rewrite lookup_insert_ne by congruence. apply Hm. set_solver. }
  { intros j Hj. rewrite lookup_insert_ne by lia. apply Hi. lia. }
  exists ([EInv i (CHSet k f v)] ++ evs ++ [ERet i (RInt (1, None))]). split.
  - cbn [together]. rewrite cexec_app, exec_a; [|apply Hi; lia|apply Hm; set_solver]. rewrite cexec_app, E, exec_b by (apply Hi; lia). reflexivity.
  - cbn [sets]. rewrite P. cbn. apply perm_skip. rewrite (Permutation_app_comm (sets k v (S i) fs)). reflexivity.
Qed.
(** one after the other *)
Fixpoint inorder (i : nat) (fs : list gostr) : list act :=
  match fs with [] => [] | f :: r => (AInv i (CHSet k f v) :: runs i 4) ++ [ARun i; ARet i] ++ inorder (S i) r end.
Lemma exec_inorder fs : forall i mp len th, NoDup fs -> (forall f, f ∈ fs -> mp !! f = None) -> (forall j, (i <= j)%nat -> th !! j = None) ->
  - 2 ^ 63 <= len -> len + Z.of_nat (length fs) < 2 ^ 63 ->
  cexec (inorder i fs) (Conf (wat mp len) th) = Some (Conf (wat (stores fs mp) (len + Z.of_nat (length fs))) th, sets k v i fs).
Proof.
  induction fs as [|f fs IH]; intros i mp len th Hn Hm Hi H1 H2; [cbn; rewrite Z.add_0_r; reflexivity|]. apply list.NoDup_cons in Hn as [Hf Hn]. cbn [length] in H2.
  cbn [inorder]. rewrite cexec_app, exec_a; [|apply Hi; lia|apply Hm; set_solver]. rewrite cexec_app, exec_b by (apply Hi; lia).
  replace (wrap64 (len + 1)) with (len + 1) by (symmetry; apply wrap_in; lia).
  rewrite IH; [|exact Hn| | |lia|lia].
  - cbn [sets length stores fold_left app]. do 4 f_equal. lia.
  - intros g Hg. rewrite lookup_insert_ne by congruence. apply Hm. set_solver.
  - intros j Hj. apply Hi. lia.
Qed.
Lemma sets_app fs gs : forall i, sets k v i (fs ++ gs) = sets k v i fs ++ sets k v (length fs + i) gs.
Proof. induction fs as [|f fs IH]; intros i; [reflexivity|]. cbn [app sets length]. rewrite IH. cbn. do 4 f_equal. lia. Qed.

(** ** no other count is possible *)
Inductive lst := N0 | L1 | L2 | L3 | L4 | L5 (n : Z) | L6 | N7.
Definition prog_at (f : gostr) (s : lst) : option (prog reply) :=
  match s with N0 | N7 => None | L1 => Some (q1 f) | L2 => Some (q2 f) | L3 => Some (q3 f) | L4 => Some q4 | L5 n => Some (q5 n) | L6 => Some q6 end.
Definition before (s : lst) : Prop := match s with N0 | L1 | L2 | L3 => True | _ => False end.
Definition after (s : lst) : Prop := match s with L6 | N7 => True | _ => False end.
Definition track_inv (fs : list gostr) (n0 : Z) (p : list event) (c : conf) : Prop :=
  exists mp len (pc : nat -> lst) (S : gset nat), c_w c = wat mp len /\
  (forall i f, fs !! i = Some f -> c_th c !! i = prog_at f (pc i)) /\ (forall i, fs !! i = None -> c_th c !! i = None) /\
  (forall i f, fs !! i = Some f -> (before (pc i) -> mp !! f = None)) /\
  (forall i cl, EInv i cl ∈ p -> pc i <> N0) /\ (forall i, pc i <> N0 -> exists cl, EInv i cl ∈ p) /\ (forall i r, ERet i r ∈ p -> pc i = N7) /\
  (forall i, i ∈ S <-> (i < length fs)%nat /\ after (pc i)) /\
  n0 <= len <= n0 + Z.of_nat (size S) /\ (S <> ∅ -> n0 < len) /\
  (forall i n, (i < length fs)%nat -> pc i = L5 n -> n0 <= n <= n0 + Z.of_nat (size S)).
Lemma size_new (S : gset nat) i : i ∉ S -> Z.of_nat (size (S ∪ {[i]})) = Z.of_nat (size S) + 1.
Proof. intros H. rewrite size_union by set_solver. rewrite size_singleton. lia. Qed.
Definition move (pc : nat -> lst) (i : nat) (x : lst) : nat -> lst := fun j => if decide (j = i) then x else pc j.
Lemma move_eq pc i x : move pc i x i = x. Proof. unfold move. rewrite decide_True; auto. Qed.
Lemma move_ne pc i x j : j <> i -> move pc i x j = pc j. Proof. intros. unfold move. rewrite decide_False; auto. Qed.
(** The moves that leave the count alone. *)
Lemma track_plain fs n0 p c i f x q mp len pc (S : gset nat) mp' ev :
  c_w c = wat mp len ->
  (forall j g, fs !! j = Some g -> c_th c !! j = prog_at g (pc j)) -> (forall j, fs !! j = None -> c_th c !! j = None) ->
  (forall j g, fs !! j = Some g -> (before (pc j) -> mp !! g = None)) ->
  (forall j cl, EInv j cl ∈ p -> pc j <> N0) -> (forall j, pc j <> N0 -> exists cl, EInv j cl ∈ p) -> (forall j r, ERet j r ∈ p -> pc j = N7) ->
  (forall j, j ∈ S <-> (j < length fs)%nat /\ after (pc j)) ->
  n0 <= len <= n0 + Z.of_nat (size S) -> (S <> ∅ -> n0 < len) ->
  (forall j n, (j < length fs)%nat -> pc j = L5 n -> n0 <= n <= n0 + Z.of_nat (size S)) ->
  fs !! i = Some f -> (forall cl, EInv i cl ∈ ev -> x <> N0) -> (forall r, ERet i r ∈ ev -> x = N7) -> pc i <> N7 -> (pc i <> N0 -> x <> N0) -> (x <> N0 -> pc i <> N0 \/ exists cl, EInv i cl ∈ ev) ->
  (forall j cl, EInv j cl ∈ ev -> j = i) -> (forall j r, ERet j r ∈ ev -> j = i) ->
  (after x <-> after (pc i)) -> (forall n, x = L5 n -> n0 <= n <= n0 + Z.of_nat (size S)) ->
  (before x -> mp' !! f = None) -> (forall j g, j <> i -> fs !! j = Some g -> mp !! g = None -> mp' !! g = None) ->
  q = prog_at f x ->
  track_inv fs n0 (p ++ ev) (Conf (wat mp' len) (match q with Some y => <[i := y]> (c_th c) | None => delete i (c_th c) end)).
Proof.
  intros A1 A2 A3 A4 A5 A5' A6 A7 A8 A9 A10 Hf B1 B2 B3 B4 B4' B5 B6 B7 B8 B9 B10 ->.
  exists mp', len, (move pc i x), S. split; [reflexivity|]. split; [|split; [|split; [|split; [|split; [|split; [|split; [|split; [|split]]]]]]]].
  - intros j g Hj. cbn [c_th]. destruct (decide (j = i)) as [->|Hne].
    + rewrite move_eq. rewrite Hf in Hj. injection Hj as <-. destruct (prog_at f x); [apply lookup_insert|apply lookup_delete].
    + rewrite move_ne by auto. destruct (prog_at f x); [rewrite lookup_insert_ne by auto|rewrite lookup_delete_ne by auto]; auto.
  - intros j Hj. cbn [c_th]. assert (j <> i) by congruence. destruct (prog_at f x); [rewrite lookup_insert_ne by auto|rewrite lookup_delete_ne by auto]; auto.
  - intros j g Hj. destruct (decide (j = i)) as [->|Hne]; [rewrite move_eq; rewrite Hf in Hj; injection Hj as <-; exact B9|rewrite move_ne by auto; eauto].
  - intros j cl Hj. apply elem_of_app in Hj as [Hj|Hj]; destruct (decide (j = i)) as [->|Hne]; rewrite ?move_eq, ?move_ne by auto; eauto.
  - intros j Hj. destruct (decide (j = i)) as [->|Hne].
    + rewrite move_eq in Hj. destruct (B4' Hj) as [H|[cl H]]; [destruct (A5' _ H) as [cl H']|]; exists cl; apply elem_of_app; auto.
    + rewrite move_ne in Hj by auto. destruct (A5' _ Hj) as [cl H]. exists cl. apply elem_of_app; auto.
  - intros j r Hj. apply elem_of_app in Hj as [Hj|Hj]; destruct (decide (j = i)) as [->|Hne]; rewrite ?move_eq, ?move_ne by auto; eauto.
    + exfalso. apply B3. eauto.
    + exfalso. apply Hne. eauto.
  - intros j. rewrite A7. destruct (decide (j = i)) as [->|Hne]; [rewrite move_eq; tauto|rewrite move_ne by auto; tauto].
  - exact A8.
  - exact A9.
  - intros j n Hj. destruct (decide (j = i)) as [->|Hne]; [rewrite move_eq; auto|rewrite move_ne by auto; eauto].
Qed.
Ltac noev := solve [intros; match goal with H : _ ∈ _ |- _ => first [inversion H; fail|apply elem_of_list_singleton in H; congruence] end | eauto | intros _; right; eexists; apply elem_of_list_here].
Lemma sets_inv fs : forall i0 i cl, EInv i cl ∈ sets k v i0 fs -> (i0 <= i)%nat /\ exists f, fs !! (i - i0)%nat = Some f /\ cl = CHSet k f v.
Proof.
  induction fs as [|f fs IH]; intros i0 i cl H; [inversion H|]. cbn [sets] in H. apply elem_of_cons in H as [[= -> ->]|H].
  - split; [lia|]. exists f. rewrite Nat.sub_diag. auto.
  - apply elem_of_cons in H as [[=]|H]. destruct (IH _ _ _ H) as (H1 & g & H2 & ->). split; [lia|]. exists g. split; [|reflexivity].
    replace (i - i0)%nat with (S (i - S i0))%nat by lia. exact H2.
Qed.
Lemma sets_ret fs : forall i0 i r, ERet i r ∈ sets k v i0 fs -> (i0 <= i)%nat.
Proof.
  induction fs as [|f fs IH]; intros i0 i cl H; [inversion H|]. cbn [sets] in H. apply elem_of_cons in H as [[=]|H]. apply elem_of_cons in H as [[= -> ->]|H]; [lia|]. apply IH in H. lia.
Qed.
Lemma sets_nodup fs : forall i0, NoDup (sets k v i0 fs).
Proof.
  induction fs as [|f fs IH]; intros i0; cbn [sets]; [constructor|]. constructor; [|constructor; [|apply IH]].
  - intros H. apply elem_of_cons in H as [[=]|H]. apply sets_inv in H as [H _]. lia.
  - intros H. apply sets_ret in H. lia.
Qed.
Lemma sets_notick fs : forall i0 t, ETick t ∉ sets k v i0 fs.
Proof. induction fs as [|f fs IH]; intros i0 t H; [inversion H|]. cbn [sets] in H. apply elem_of_cons in H as [[=]|H]. apply elem_of_cons in H as [[=]|H]. exact (IH _ _ H). Qed.
Lemma sets_has fs : forall i0 i f, fs !! i = Some f -> ERet (i0 + i) (RInt (1, None)) ∈ sets k v i0 fs.
Proof.
  induction fs as [|g fs IH]; intros i0 [|i] f H; try discriminate; cbn [sets].
  - rewrite Nat.add_0_r. apply elem_of_list_further, elem_of_list_here.
  - rewrite Nat.add_succ_r. apply elem_of_list_further, elem_of_list_further. apply (IH (S i0) i f H).
Qed.
Lemma go1_det p w w1 p1 g : go1 p w w1 p1 -> p = Step g -> g w = Go w1 p1.
Proof. intros (g' & -> & E) [= ->]. exact E. Qed.
Lemma track_step fs n0 p a c c' ev rest : NoDup fs -> - 2 ^ 63 <= n0 -> n0 + Z.of_nat (length fs) < 2 ^ 63 ->
  track_inv fs n0 p c -> cstep a c = Some (c', ev) -> p ++ ev ++ rest ≡ₚ sets k v 0 fs -> track_inv fs n0 (p ++ ev) c'.
Proof.
  intros Hnd Hlo Hhi (mp & len & pc & S & A1 & A2 & A3 & A4 & A5 & A5' & A6 & A7 & A8 & A9 & A10) E P.
  assert (HS : Z.of_nat (size S) <= Z.of_nat (length fs)).
  { assert (S ⊆ set_seq 0 (length fs)) as HSs by (intros j Hj; apply elem_of_set_seq; apply A7 in Hj; lia). apply subseteq_size in HSs. rewrite size_set_seq in HSs. lia. }
  destruct a as [i cl|i|i|t]; cbn [cstep] in E.
  - destruct (c_th c !! i) eqn:Ei; [discriminate|]. injection E as <- <-.
    assert (Hin : EInv i cl ∈ sets k v 0 fs) by (rewrite <- P, !elem_of_app, ?elem_of_list_singleton; auto). destruct (sets_inv _ _ _ _ Hin) as (_ & f & Hf & ->). rewrite Nat.sub_0_r in Hf.
    assert (Hnew : forall cl', EInv i cl' ∉ p).
    { intros cl' H. assert (Hin' : EInv i cl' ∈ sets k v 0 fs) by (rewrite <- P, !elem_of_app, ?elem_of_list_singleton; auto). destruct (sets_inv _ _ _ _ Hin') as (_ & f' & Hf' & ->). rewrite Nat.sub_0_r, Hf in Hf'. injection Hf' as <-.
      pose proof (sets_nodup fs 0) as N. rewrite <- P in N. apply list.NoDup_app in N as (_ & N & _). apply (N _ H). apply elem_of_app. left. apply elem_of_list_here. }
    rewrite (A2 _ _ Hf) in Ei.
    assert (Hpc : pc i = N0 \/ pc i = N7) by (destruct (pc i); try discriminate; auto).
    destruct Hpc as [Hpc|Hpc].
    2:{ exfalso. destruct (A5' i) as [cl' H]; [rewrite Hpc; discriminate|]. exact (Hnew _ H). }
    rewrite A1. apply (track_plain fs n0 p c i f L1 (Some (q1 f)) mp len pc S mp [EInv i (CHSet k f v)] A1 A2 A3 A4 A5 A5' A6 A7 A8 A9 A10 Hf); rewrite ?Hpc; try discriminate; try tauto; try congruence; try noev; try (intros _; left; discriminate); try (intros []; fail).
    all: intros _; apply (A4 _ _ Hf); rewrite Hpc; exact I.
  - destruct (c_th c !! i) as [pr|] eqn:Ei; [|discriminate]. destruct pr as [|g]; [discriminate|].
    assert (exists f, fs !! i = Some f) as [f Hf] by (destruct (fs !! i) eqn:Ef; [eauto|rewrite (A3 _ Ef) in Ei; discriminate]).
    assert (Hlt : (i < length fs)%nat) by (apply lookup_lt_Some in Hf; exact Hf).
    rewrite (A2 _ _ Hf) in Ei.
    assert (G : forall q w' p', prog_at f (pc i) = Some q -> go1 q (wat mp len) w' p' -> ev = [] /\ c' = Conf w' (<[i := p']> (c_th c))).
    { intros q w' p' Hq (g' & -> & Eg). rewrite Hq in Ei. injection Ei as <-. rewrite A1, Eg in E. injection E as <- <-. auto. }
    destruct (pc i) as [| | | | |n| |] eqn:Hpc; try discriminate.
    + destruct (G _ _ _ eq_refl (go_1 f mp len)) as [-> ->].
      apply (track_plain fs n0 p c i f L2 (Some (q2 f)) mp len pc S mp [] A1 A2 A3 A4 A5 A5' A6 A7 A8 A9 A10 Hf); rewrite ?Hpc; try discriminate; try tauto; try noev; try (intros _; left; discriminate); try (intros []; fail).
      all: intros _; apply (A4 _ _ Hf); rewrite Hpc; exact I.
    + destruct (G _ _ _ eq_refl (go_2 f mp len)) as [-> ->].
      apply (track_plain fs n0 p c i f L3 (Some (q3 f)) mp len pc S mp [] A1 A2 A3 A4 A5 A5' A6 A7 A8 A9 A10 Hf); rewrite ?Hpc; try discriminate; try tauto; try noev; try (intros _; left; discriminate); try (intros []; fail).
      all: intros _; apply (A4 _ _ Hf); rewrite Hpc; exact I.
    + assert (Hm : mp !! f = None) by (apply (A4 _ _ Hf); rewrite Hpc; exact I). destruct (G _ _ _ eq_refl (go_3 f mp len Hm)) as [-> ->].
      apply (track_plain fs n0 p c i f L4 (Some q4) mp len pc S (<[f := try_int64 v]> mp) [] A1 A2 A3 A4 A5 A5' A6 A7 A8 A9 A10 Hf); rewrite ?Hpc; try discriminate; try tauto; try noev; try (intros _; left; discriminate); try (intros []; fail).
      * intros j g' Hne Hj Hg. rewrite lookup_insert_ne; [exact Hg|]. intros <-. apply Hne. exact (NoDup_lookup fs j i f Hnd Hj Hf).
    + destruct (G _ _ _ eq_refl (go_4 mp len)) as [-> ->].
      apply (track_plain fs n0 p c i f (L5 len) (Some (q5 len)) mp len pc S mp [] A1 A2 A3 A4 A5 A5' A6 A7 A8 A9 A10 Hf); rewrite ?Hpc; try discriminate; try tauto; try noev; try (intros _; left; discriminate); try (intros []; fail).
      * intros n [= <-]. exact A8.
    + destruct (G _ _ _ eq_refl (go_5 mp len n)) as [-> ->]. pose proof (A10 _ _ Hlt Hpc) as Hn.
      assert (HiS : i ∉ S) by (rewrite A7, Hpc; cbn; tauto).
      assert (HS' : Z.of_nat (size S) + 1 <= Z.of_nat (length fs)).
      { rewrite <- (size_new S i HiS). assert (S ∪ {[i]} ⊆ set_seq 0 (length fs)) as HSs by (intros j Hj; apply elem_of_set_seq; apply elem_of_union in Hj as [Hj|Hj]; [apply A7 in Hj; lia|apply elem_of_singleton in Hj; lia]).
        apply subseteq_size in HSs. rewrite size_set_seq in HSs. lia. }
      rewrite wrap_in by lia. rewrite app_nil_r.
      exists mp, (n + 1), (move pc i L6), (S ∪ {[i]}). rewrite (size_new S i HiS). split; [reflexivity|]. split; [|split; [|split; [|split; [|split; [|split; [|split; [|split; [|split]]]]]]]].
      * intros j g' Hj. cbn [c_th]. destruct (decide (j = i)) as [->|Hne]; [rewrite move_eq; apply lookup_insert|rewrite move_ne, lookup_insert_ne by auto; auto].
      * intros j Hj. cbn [c_th]. rewrite lookup_insert_ne by congruence. auto.
      * intros j g' Hj. destruct (decide (j = i)) as [->|Hne]; [rewrite move_eq; intros []|rewrite move_ne by auto; eauto].
      * intros j cl Hj. destruct (decide (j = i)) as [->|Hne]; [rewrite move_eq; discriminate|rewrite move_ne by auto; eauto].
      * intros j Hj. destruct (decide (j = i)) as [->|Hne]; [apply A5'; rewrite Hpc; discriminate|rewrite move_ne in Hj by auto; eauto].
      * intros j r Hj. destruct (decide (j = i)) as [->|Hne]; [exfalso; apply A6 in Hj; congruence|rewrite move_ne by auto; eauto].
      * intros j. rewrite elem_of_union, elem_of_singleton, A7. destruct (decide (j = i)) as [->|Hne]; [rewrite move_eq; cbn; tauto|rewrite move_ne by auto; tauto].
      * lia.
      * lia.
      * intros j m Hj. destruct (decide (j = i)) as [->|Hne]; [rewrite move_eq; discriminate|rewrite move_ne by auto]. intros Hm. pose proof (A10 _ _ Hj Hm). lia.
  - destruct (c_th c !! i) as [pr|] eqn:Ei; [|discriminate]. destruct pr as [r|]; [|discriminate]. injection E as <- <-.
    assert (exists f, fs !! i = Some f) as [f Hf] by (destruct (fs !! i) eqn:Ef; [eauto|rewrite (A3 _ Ef) in Ei; discriminate]).
    rewrite (A2 _ _ Hf) in Ei. destruct (pc i) eqn:Hpc; try discriminate. rewrite A1.
    apply (track_plain fs n0 p c i f N7 None mp len pc S mp [ERet i r] A1 A2 A3 A4 A5 A5' A6 A7 A8 A9 A10 Hf); rewrite ?Hpc; try discriminate; try tauto; try noev; try (intros _; left; discriminate); try (intros []; fail).
  - destruct (w_now (c_w c) <=? t); [|discriminate]. injection E as <- <-. exfalso. apply (sets_notick fs 0 t). rewrite <- P. rewrite !elem_of_app, elem_of_list_singleton. auto.
Qed.
Lemma track_exec fs n0 s : NoDup fs -> - 2 ^ 63 <= n0 -> n0 + Z.of_nat (length fs) < 2 ^ 63 -> forall p c c' evs,
  track_inv fs n0 p c -> cexec s c = Some (c', evs) -> p ++ evs ≡ₚ sets k v 0 fs -> track_inv fs n0 (p ++ evs) c'.
Proof.
  intros H1 H2 H3. induction s as [|a s IH]; intros p c c' evs HI E P; cbn [cexec] in E; [injection E as <- <-; rewrite app_nil_r; exact HI|].
  destruct (cstep a c) as [[c1 e1]|] eqn:E1; [|discriminate]. destruct (cexec s c1) as [[c2 e2]|] eqn:E2; [|discriminate]. injection E as <- <-.
  rewrite app_assoc. apply (IH _ c1); [|exact E2|rewrite <- app_assoc; exact P]. exact (track_step fs n0 p a c c1 e1 e2 H1 H2 H3 HI E1 P).
Qed.
End lost.

(** When each of the goroutines 0, 1, ... has added a field of its own to a hash and all have returned 1, HLen says any number from
    one more than before up to the right one, and nothing else. *)
Theorem C155_exact_partial w0 k v l n0 fs0 fs n :
  ready w0 -> stored w0 k = Some (VHash l) -> deadline w0 k = None ->
  answer (w_now w0) (CHLen k) w0 = Some (RInt (n0, None)) -> answer (w_now w0) (CHKeys k) w0 = Some (RList (fs0, None)) ->
  NoDup fs -> fs <> [] -> (forall f, f ∈ fs -> f ∉ fs0) -> - 2 ^ 63 <= n0 -> n0 + zlen fs < 2 ^ 63 ->
  (exists s c evs, cexec s (start w0) = Some (c, evs) /\ evs ≡ₚ sets k v 0 fs /\ answer (w_now (c_w c)) (CHLen k) (c_w c) = Some (RInt (n, None))) <->
  n0 < n <= n0 + zlen fs.
Proof.
  intros Hr Hs Hdl Hn0 Hf0 Hnd Hne Hnew Hlo Hhi.
  assert (HI0 : inv k l (fun _ => True) w0) by (apply (start_inv w0 k [] l (fun _ => True)); auto).
  destruct (hkeys_now k l (w_now w0) w0 HI0) as (fs1 & o & Ho & Hk1 & _). rewrite Hf0 in Hk1. injection Hk1 as <-.
  destruct HI0 as (d & e & o' & Hd & He & Hk & Hek & Ho' & Huniq & Hnx & _). rewrite Ho in Ho'. injection Ho' as <-.
  assert (Hlen : forall t w mp len, w = wat w0 l mp len -> answer t (CHLen k) w = Some (RInt (len, None))).
  { intros t w mp len ->. unfold answer, run_call. cbn -[wat]. change (w_data (set_now (wat w0 l mp len) t)) with (w_data w0). unfold wat. cbn. rewrite Hd, Hk. cbn. rewrite He, Hek. cbn. rewrite lookup_insert. reflexivity. }
  assert (Hw : w0 = wat w0 l (h_map o) (h_len o)). { unfold wat. rewrite insert_id by (rewrite Ho; destruct o; reflexivity). destruct w0; reflexivity. }
  assert (h_len o = n0) as Hol. { rewrite (Hlen _ w0 _ _ Hw) in Hn0. injection Hn0 as <-. reflexivity. }
  assert (Hmp : forall f, f ∈ fs -> h_map o !! f = None).
  { intros f Hf. destruct (h_map o !! f) eqn:Ef; [|reflexivity]. exfalso. apply (Hnew _ Hf).
    revert Hf0. destruct w0 as [wd we wh wn b m t0]. cbn in Hd, He, Ho. subst wd we. unfold answer, run_call. cbn [call_prog]. unfold pmap, m_hkeys, get_hash_entry. unfold set_now. cbn [w_data w_exp w_heap w_next w_writer w_readers w_now].
    rewrite !eval_bind, ev_c_get. unfold dead. rewrite Hek, Hk, ev_ret, eval_bind. rewrite (ev_h_range _ _ _ _ _ _ _ _ _ Ho). cbn. intros [= <-].
    apply elem_of_list_fmap. exists (f, g). split; [reflexivity|]. apply elem_of_map_to_list, Ef. }
  unfold zlen in *. split.
  - intros (s & c & evs & E & P & Ha).
    assert (HT : track_inv w0 k v l fs n0 [] (start w0)).
    { exists (h_map o), (h_len o), (fun _ => N0), ∅. cbn [start c_w c_th]. rewrite size_empty. split; [exact Hw|]. split; [|split; [|split; [|split; [|split; [|split; [|split; [|split; [|split]]]]]]]].
      - intros. apply lookup_empty.
      - intros. apply lookup_empty.
      - intros i f Hf _. apply Hmp. apply elem_of_list_lookup. eauto.
      - intros i cl H. inversion H.
      - congruence.
      - intros i r H. inversion H.
      - intros i. split; [intros H; apply elem_of_empty in H; destruct H|intros [_ []]].
      - lia.
      - congruence.
      - discriminate. }
    pose proof (track_exec w0 k v l d e Hd He Hk Hek fs n0 s Hnd Hlo Hhi [] (start w0) c evs HT E P) as (mp & len & pc & S & A1 & _ & _ & _ & _ & _ & A6 & A7 & A8 & A9 & _).
    rewrite (Hlen _ _ _ _ A1) in Ha. injection Ha as <-.
    assert (HSs : S ⊆ set_seq 0 (length fs)) by (intros j Hj; apply elem_of_set_seq; apply A7 in Hj; lia). apply subseteq_size in HSs. rewrite size_set_seq in HSs.
    split; [|lia]. apply A9. destruct fs as [|f fs]; [congruence|]. assert (0%nat ∈ S); [|set_solver]. apply A7. split; [cbn; lia|].
    rewrite (A6 0%nat (RInt (1, None))); [exact I|]. cbn [app]. rewrite P. apply (sets_has k v (f :: fs) 0 0 f eq_refl).
  - intros Hn. set (m := Z.to_nat (n - n0 - 1)). assert (Hm : (m < length fs)%nat) by lia.
    rewrite <- (firstn_skipn m fs) in Hnd. apply list.NoDup_app in Hnd as (N1 & N2 & N3).
    assert (Hl1 : length (firstn m fs) = m) by (rewrite firstn_length; lia).
    assert (I1 : forall f, f ∈ firstn m fs -> f ∈ fs) by (intros f Hf; rewrite <- (firstn_skipn m fs); set_solver).
    assert (I2 : forall f, f ∈ skipn m fs -> f ∈ fs) by (intros f Hf; rewrite <- (firstn_skipn m fs); set_solver).
    pose proof (exec_inorder w0 k v l d e Hd He Hk Hek (firstn m fs) 0 (h_map o) (h_len o) ∅ N1 (fun f Hf => Hmp f (I1 f Hf)) (fun _ _ => lookup_empty _) ltac:(lia) ltac:(lia)) as E1.
    destruct (exec_together w0 k v l d e Hd He Hk Hek (skipn m fs) m (stores v (firstn m fs) (h_map o)) (h_len o + Z.of_nat (length (firstn m fs))) ∅ N3) as (evs & E2 & P2).
    { intros f Hf. assert (Hst : forall gs mp, f ∉ gs -> mp !! f = None -> stores v gs mp !! f = None).
      { induction gs as [|g gs IH]; intros mp Hg Hmf; [exact Hmf|]. cbn. apply IH; [set_solver|]. rewrite lookup_insert_ne; [exact Hmf|]. intros ->. apply Hg. apply elem_of_list_here. }
      apply Hst; [|apply Hmp, I2, Hf]. intros Hg. exact (N2 _ Hg Hf). }
    { intros. apply lookup_empty. }
    exists (inorder k v 0 (firstn m fs) ++ together k v m (skipn m fs)). eexists _, _. split; [|split].
    + rewrite cexec_app. unfold start. rewrite Hw at 1. rewrite E1, E2. reflexivity.
    + rewrite P2. rewrite <- (firstn_skipn m fs) at 3. rewrite sets_app, Hl1, Nat.add_0_r. reflexivity.
    + cbn [c_w]. erewrite Hlen by reflexivity. destruct (skipn m fs) eqn:Esk; [apply (f_equal length) in Esk; rewrite skipn_length in Esk; cbn in Esk; lia|].
      rewrite wrap_in by lia. do 3 f_equal. lia.
Qed.
(** The hash h of the demo has one field and length 1: two new fields can leave 2 or 3. *)
Example C155_exact_nonvacuous : ready demo /\ (exists l, stored demo (bs "h") = Some (VHash l)) /\ NoDup [bs "x"; bs "y"] /\
  sets (bs "h") (bs "1") 0 [bs "x"; bs "y"] =
    [EInv 0 (CHSet (bs "h") (bs "x") (bs "1")); ERet 0 (RInt (1, None)); EInv 1 (CHSet (bs "h") (bs "y") (bs "1")); ERet 1 (RInt (1, None))].
Proof. split; [apply demo_ready|]. split; [apply C155_nonvacuous|]. split; [|reflexivity]. repeat constructor; vm_compute; [|intros H; inversion H]. intros H. inversion H as [|? ? ? H1]; subst. inversion H1. Qed.
Print Assumptions C155_exact_partial.
