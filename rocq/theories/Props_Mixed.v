(** * Props_Mixed: which field counts concurrent HSets and HDels of different fields can leave (C203) *)
From stdpp Require Import relations.
From Verif Require Import Base GoFloat CacheModel CacheSpec CacheAbs CacheRefine CacheRefineH CacheMain CacheLib CacheConc ConcLin ConcSafe ConcDl ConcHash ConcLen.
From Verif Require Import Props_String Props_Counter Props_Hash Props_Conc Props_Conc4 Props_Conc5 Props_Lost Props_Born Props_Nx Props_Del.

(** An operation adds (true) or deletes (false) a field. *)
Definition fop := (bool * gostr)%type.
Definition op_call (k v : gostr) (o : fop) : call := if fst o then CHSet k (snd o) v else CHDel k [snd o].
(** Goroutine i does the i-th operation, once, and is told 1; [i] is the number of the first goroutine. *)
Fixpoint mixed (k v : gostr) (i : nat) (os : list fop) : list event :=
  match os with
  | [] => []
  | o :: r => EInv i (op_call k v o) :: ERet i (RInt (1, None)) :: mixed k v (S i) r
  end.
Definition adds (os : list fop) : Z := Z.of_nat (length (List.filter (fun o => fst o) os)).
Definition drops (os : list fop) : Z := Z.of_nat (length (List.filter (fun o => negb (fst o)) os)).

Definition pmx (k v : gostr) (l : list (nat * fop)) : list event := concat (map (fun x => [EInv (fst x) (op_call k v (snd x)); ERet (fst x) (RInt (1, None))]) l).
Lemma mixed_nums k v os : forall i, mixed k v i os = pmx k v (nums i os).
Proof. induction os as [|o r IH]; intros i; [reflexivity|]. cbn. rewrite IH. reflexivity. Qed.
Lemma pmx_perm k v l l' : l ≡ₚ l' -> pmx k v l ≡ₚ pmx k v l'.
Proof. intros P. unfold pmx. induction P; cbn; [reflexivity|rewrite IHP; reflexivity|solve_Permutation|etransitivity; eassumption]. Qed.
Lemma pmx_app k v l l' : pmx k v (l ++ l') = pmx k v l ++ pmx k v l'.
Proof. unfold pmx. rewrite map_app, concat_app. reflexivity. Qed.

Section mixed.
Context (w0 : world) (k v : gostr) (l : positive) (d : gmap gostr gval) (e : gmap gostr Z).
Context (Hd : w_data w0 = Some d) (He : w_exp w0 = Some e) (Hk : d !! k = Some (VHash l)) (Hek : e !! k = None).
Notation wa := (wat w0 l).
Definition delta (o : fop) : Z := if fst o then 1 else -1.
Definition act_on (o : fop) (mp : gmap gostr gval) : gmap gostr gval := if fst o then <[snd o := try_int64 v]> mp else delete (snd o) mp.
(** the field is not there yet, or still there *)
Definition fits (mp : gmap gostr gval) (o : fop) : Prop := if fst o then mp !! snd o = None else is_Some (mp !! snd o).
Lemma fits_other mp o o' : snd o <> snd o' -> fits mp o -> fits (act_on o' mp) o.
Proof. intros Hne. destruct o as [[] f], o' as [[] g]; unfold fits, act_on; cbn in *; rewrite ?lookup_insert_ne, ?lookup_delete_ne by congruence; auto. Qed.
Definition t5 (o : fop) : prog reply := if fst o then q4 l else d5 l.
Definition t6 (o : fop) (n : Z) : prog reply := if fst o then q5 l n else d6 l n.
Definition t7 : prog reply := q6.
Lemma st_5 o mp len : go1 (t5 o) (wa mp len) (wa mp len) (t6 o len).
Proof. destruct o as [[] f]; [apply go_4|apply sd_5]. Qed.
Lemma st_6 o mp len n : go1 (t6 o n) (wa mp len) (wa mp (wrap64 (n + delta o))) t7.
Proof. destruct o as [[] f]; [apply go_5|]. replace (n + delta (false, f)) with (n - 1) by (cbn; lia). apply sd_6. Qed.

(** ** every count is possible *)
Definition pre (x : nat * fop) : list act := AInv (fst x) (op_call k v (snd x)) :: runs (fst x) (if fst (snd x) then 4 else 5).
Definition post (x : nat * fop) : list act := [ARun (fst x); ARet (fst x)].
Lemma exec_pre x mp len th : th !! fst x = None -> fits mp (snd x) ->
  cexec (pre x) (Conf (wa mp len) th) = Some (Conf (wa (act_on (snd x) mp) len) (<[fst x := t6 (snd x) len]> th), [EInv (fst x) (op_call k v (snd x))]).
Proof.
  destruct x as [i [[] f]]; unfold pre, fits, t6, act_on, op_call; cbn [fst snd]; intros Hi Hf.
  - apply (exec_a w0 k v l d e Hd He Hk Hek i f mp len th Hi Hf).
  - destruct Hf as [x Hx]. cbn [cexec runs repeat]. unfold cstep at 1. cbn [c_th c_w]. rewrite Hi. change (call_prog (CHDel k [f])) with (d1 k f).
    rewrite (go_run _ _ _ _ _ _ (sd_1 w0 k f l d Hd Hk mp len)), (go_run _ _ _ _ _ _ (sd_2 w0 k f l e He Hek mp len)), (go_run _ _ _ _ _ _ (sd_3s w0 f l mp len x Hx)), (go_run _ _ _ _ _ _ (sd_4 w0 f l mp len)), (go_run _ _ _ _ _ _ (sd_5 w0 l _ len)). reflexivity.
Qed.
Lemma exec_post x n mp len th : th !! fst x = None ->
  cexec (post x) (Conf (wa mp len) (<[fst x := t6 (snd x) n]> th)) = Some (Conf (wa mp (wrap64 (n + delta (snd x)))) th, [ERet (fst x) (RInt (1, None))]).
Proof.
  intros Hi. unfold post. cbn [cexec]. rewrite (go_run _ _ _ _ _ _ (st_6 (snd x) mp len n)). unfold cstep. cbn [c_th c_w]. rewrite lookup_insert. unfold t7, q6. rewrite delete_insert by exact Hi. reflexivity.
Qed.
Definition act_all (xs : list (nat * fop)) (mp : gmap gostr gval) : gmap gostr gval := fold_left (fun m x => act_on (snd x) m) xs mp.
Lemma fits_all o xs : forall mp, (forall x, x ∈ xs -> snd o <> snd (snd x)) -> fits mp o -> fits (act_all xs mp) o.
Proof.
  induction xs as [|x xs IH]; intros mp H Hf; [exact Hf|]. cbn. apply IH; [intros y Hy; apply H, elem_of_list_further, Hy|]. apply fits_other; [apply H, elem_of_list_here|exact Hf].
Qed.
Definition fields (xs : list (nat * fop)) : list gostr := map (fun x => snd (snd x)) xs.
(** all look up the length before any of them changes it; the first one changes it last *)
Fixpoint at_once (xs : list (nat * fop)) : list act := match xs with [] => [] | x :: r => pre x ++ at_once r ++ post x end.
Lemma exec_at_once xs : forall mp len th, NoDup (map fst xs) -> NoDup (fields xs) -> (forall x, x ∈ xs -> fits mp (snd x)) -> (forall x, x ∈ xs -> th !! fst x = None) ->
  exists evs, cexec (at_once xs) (Conf (wa mp len) th) = Some (Conf (wa (act_all xs mp) (match xs with [] => len | x :: _ => wrap64 (len + delta (snd x)) end)) th, evs) /\ evs ≡ₚ pmx k v xs.
Proof.
  induction xs as [|x xs IH]; intros mp len th N1 N2 Hm Hi; [exists []; split; reflexivity|]. cbn [map fields] in N1, N2. apply list.NoDup_cons in N1 as [M1 N1]. apply list.NoDup_cons in N2 as [M2 N2].
  destruct (IH (act_on (snd x) mp) len (<[fst x := t6 (snd x) len]> th) N1 N2) as (evs & E & P).
  { intros y Hy. apply fits_other; [|apply Hm, elem_of_list_further, Hy]. intros Heq. apply M2. change (snd (snd x) ∈ fields xs). rewrite <- Heq. apply elem_of_list_fmap. exists y. auto. }
  { intros y Hy. rewrite lookup_insert_ne; [apply Hi, elem_of_list_further, Hy|]. intros Heq. apply M1. rewrite Heq. apply elem_of_list_fmap. eauto. }
  exists ([EInv (fst x) (op_call k v (snd x))] ++ evs ++ [ERet (fst x) (RInt (1, None))]). split.
  - cbn [at_once]. rewrite cexec_app, exec_pre; [|apply Hi, elem_of_list_here|apply Hm, elem_of_list_here]. rewrite cexec_app, E, exec_post by (apply Hi, elem_of_list_here). reflexivity.
  - change (pmx k v (x :: xs)) with (EInv (fst x) (op_call k v (snd x)) :: ERet (fst x) (RInt (1, None)) :: pmx k v xs). rewrite P. cbn. apply perm_skip. rewrite (Permutation_app_comm (pmx k v xs)). reflexivity.
Qed.
(** one after the other *)
Definition in_turn (xs : list (nat * fop)) : list act := concat (map (fun x => pre x ++ post x) xs).
Definition total (xs : list (nat * fop)) : Z := fold_right (fun x z => delta (snd x) + z) 0 xs.
Lemma total_range xs : - Z.of_nat (length xs) <= total xs <= Z.of_nat (length xs).
Proof. induction xs as [|[i [[] f]] xs IH]; cbn [total fold_right length]; [lia| |]; cbn; fold (total xs); lia. Qed.
Lemma exec_in_turn xs : forall mp len th, NoDup (fields xs) -> (forall x, x ∈ xs -> fits mp (snd x)) -> (forall x, x ∈ xs -> th !! fst x = None) ->
  - 2 ^ 63 <= len - Z.of_nat (length xs) -> len + Z.of_nat (length xs) < 2 ^ 63 ->
  cexec (in_turn xs) (Conf (wa mp len) th) = Some (Conf (wa (act_all xs mp) (len + total xs)) th, pmx k v xs).
Proof.
  induction xs as [|x xs IH]; intros mp len th N Hm Hi H1 H2; [cbn; rewrite Z.add_0_r; reflexivity|]. cbn [map fields] in N. apply list.NoDup_cons in N as [M2 N2]. cbn [length] in H1, H2.
  change (in_turn (x :: xs)) with ((pre x ++ post x) ++ in_turn xs). rewrite <- app_assoc. rewrite cexec_app, exec_pre; [|apply Hi, elem_of_list_here|apply Hm, elem_of_list_here]. rewrite cexec_app, exec_post by (apply Hi, elem_of_list_here).
  assert (Hdl : -1 <= delta (snd x) <= 1) by (unfold delta; destruct (fst (snd x)); lia).
  rewrite wrap_in by lia. rewrite IH; [|exact N2| | |lia|lia].
  - cbn [total fold_right]. fold (total xs). rewrite Z.add_assoc. reflexivity.
  - intros y Hy. apply fits_other; [|apply Hm, elem_of_list_further, Hy]. intros Heq. apply M2. change (snd (snd x) ∈ fields xs). rewrite <- Heq. apply elem_of_list_fmap. exists y. auto.
  - intros y Hy. apply Hi, elem_of_list_further, Hy.
Qed.
Lemma exec_mixed (os : list fop) (mp : gmap gostr gval) (len : Z) (h : nat * fop) (rest tail : list (nat * fop)) : h :: rest ++ tail ≡ₚ nums 0 os -> NoDup (map snd os) -> (forall o, o ∈ os -> fits mp o) ->
  - 2 ^ 63 <= len - Z.of_nat (length os) -> len + Z.of_nat (length os) < 2 ^ 63 ->
  exists s mp' evs, cexec s (Conf (wa mp len) ∅) = Some (Conf (wa mp' (len + delta (snd h) + total tail)) ∅, evs) /\ evs ≡ₚ mixed k v 0 os.
Proof.
  intros P Hn Hf H1 H2.
  assert (Hlen : length os = (1 + length rest + length tail)%nat).
  { rewrite <- (nums_snd os 0), map_length, <- P. cbn. rewrite app_length. lia. }
  assert (N1 : NoDup (map fst ((h :: rest) ++ tail))) by (cbn [app]; rewrite P, nums_fst; apply NoDup_seq).
  assert (N2 : NoDup (fields ((h :: rest) ++ tail))).
  { unfold fields. cbn [app]. rewrite P. rewrite <- (map_map snd snd), nums_snd. exact Hn. }
  assert (Hfit : forall x, x ∈ (h :: rest) ++ tail -> fits mp (snd x)).
  { intros x Hx. apply Hf. rewrite <- (nums_snd os 0). apply elem_of_list_fmap. exists x. split; [reflexivity|]. rewrite <- P. exact Hx. }
  rewrite map_app in N1. apply list.NoDup_app in N1 as (N1 & _ & _). unfold fields in N2. rewrite map_app in N2. apply list.NoDup_app in N2 as (N2 & N2d & N2').
  destruct (exec_at_once (h :: rest) mp len ∅ N1 N2) as (evs & E & Pe); [intros x Hx; apply Hfit, elem_of_app; auto|intros; apply lookup_empty|].
  assert (Hdl : -1 <= delta (snd h) <= 1) by (unfold delta; destruct (fst (snd h)); lia).
  match type of E with _ = Some (Conf (wa _ ?z) _, _) => replace z with (len + delta (snd h)) in E by (symmetry; apply wrap_in; lia) end.
  exists (at_once (h :: rest) ++ in_turn tail). eexists _, _. split.
  - rewrite cexec_app, E. rewrite exec_in_turn; [reflexivity|exact N2'| |intros; apply lookup_empty|lia|lia].
    intros x Hx. apply fits_all; [|apply Hfit, elem_of_app; auto]. intros y Hy Heq. apply (N2d (snd (snd y))); [apply elem_of_list_fmap; eauto|]. rewrite <- Heq. apply elem_of_list_fmap. eauto.
  - rewrite Pe, <- pmx_app, mixed_nums. apply pmx_perm. exact P.
Qed.

(** ** no other count is possible *)
Inductive tst := T0 | T1 | T2 | T3 | T4 | T5 | T6 (n : Z) | T7 | T8.
Definition tprog (o : fop) (s : tst) : option (prog reply) :=
  match s with
  | T0 | T8 => None
  | T1 => Some (if fst o then q1 k v (snd o) else d1 k (snd o)) | T2 => Some (if fst o then q2 k v l (snd o) else d2 k (snd o) l) | T3 => Some (if fst o then q3 v l (snd o) else d3 (snd o) l)
  | T4 => if fst o then None else Some (d4 (snd o) l)
  | T5 => Some (t5 o) | T6 n => Some (t6 o n) | T7 => Some t7
  end.
Definition early (s : tst) : Prop := match s with T0 | T1 | T2 | T3 | T4 => True | _ => False end.
Definition fin (s : tst) : bool := match s with T7 | T8 => true | _ => false end.
Definition tmove (pc : nat -> tst) (i : nat) (x : tst) : nat -> tst := fun j => if decide (j = i) then x else pc j.
Lemma tmove_eq pc i x : tmove pc i x i = x. Proof. unfold tmove. rewrite decide_True; auto. Qed.
Lemma tmove_ne pc i x j : j <> i -> tmove pc i x j = pc j. Proof. intros. unfold tmove. rewrite decide_False; auto. Qed.
(** the operations of kind [b] that are over *)
Fixpoint over (b : bool) (pc : nat -> tst) (i : nat) (os : list fop) : Z :=
  match os with [] => 0 | o :: r => (if Bool.eqb (fst o) b && fin (pc i) then 1 else 0) + over b pc (S i) r end.
Lemma over_range b pc os : forall i, 0 <= over b pc i os <= Z.of_nat (length (List.filter (fun o => Bool.eqb (fst o) b) os)).
Proof.
  induction os as [|o r IH]; intros i; [cbn; lia|]. cbn [over List.filter]. specialize (IH (S i)). destruct (Bool.eqb (fst o) b), (fin (pc i)); cbn [andb length]; lia.
Qed.
Lemma over_out b pc i x os : forall i0, (i < i0)%nat -> over b (tmove pc i x) i0 os = over b pc i0 os.
Proof. induction os as [|o r IH]; intros i0 H; [reflexivity|]. cbn. rewrite tmove_ne, IH by lia. reflexivity. Qed.
Lemma over_in b pc i x o os : forall i0, (i0 <= i)%nat -> os !! (i - i0)%nat = Some o ->
  over b (tmove pc i x) i0 os = over b pc i0 os + (if Bool.eqb (fst o) b then (if fin x then 1 else 0) - (if fin (pc i) then 1 else 0) else 0).
Proof.
  induction os as [|p r IH]; intros i0 H Ho; [discriminate|]. cbn [over]. destruct (decide (i = i0)) as [->|Hne].
  - rewrite Nat.sub_diag in Ho. injection Ho as ->. rewrite tmove_eq, over_out by lia. destruct (Bool.eqb (fst o) b), (fin x), (fin (pc i0)); cbn; lia.
  - replace (i - i0)%nat with (S (i - S i0))%nat in Ho by lia. rewrite tmove_ne, (IH (S i0)) by (auto; lia). lia.
Qed.
Lemma over_end b pc os : forall i0, (forall i o, os !! i = Some o -> pc (i0 + i)%nat = T8) -> over b pc i0 os = Z.of_nat (length (List.filter (fun o => Bool.eqb (fst o) b) os)).
Proof.
  induction os as [|o r IH]; intros i0 H; [reflexivity|]. cbn [over List.filter]. rewrite (IH (S i0)).
  - pose proof (H 0%nat o eq_refl) as H0. rewrite Nat.add_0_r in H0. rewrite H0. destruct (Bool.eqb (fst o) b); cbn [andb fin length]; lia.
  - intros i p Hi. replace (S i0 + i)%nat with (i0 + S i)%nat by lia. apply (H (S i) p Hi).
Qed.
Definition minv (os : list fop) (n0 : Z) (p : list event) (c : conf) : Prop :=
  exists mp len (pc : nat -> tst), c_w c = wa mp len /\
  (forall i o, os !! i = Some o -> c_th c !! i = tprog o (pc i)) /\ (forall i, os !! i = None -> c_th c !! i = None) /\
  (forall i cl, EInv i cl ∈ p -> pc i <> T0) /\ (forall i, pc i <> T0 -> exists cl, EInv i cl ∈ p) /\ (forall i r, ERet i r ∈ p -> pc i = T8) /\
  (forall i o, os !! i = Some o -> (early (pc i) -> fits mp o) /\ (pc i = T4 -> fst o = false)) /\
  n0 - over false pc 0 os <= len <= n0 + over true pc 0 os /\ (drops os = 0 -> 0 < over true pc 0 os -> n0 < len) /\ (adds os = 0 -> 0 < over false pc 0 os -> len < n0) /\
  (forall i o n, os !! i = Some o -> pc i = T6 n -> n0 - over false pc 0 os <= n <= n0 + over true pc 0 os).
Lemma minv_move (os : list fop) (n0 : Z) (p : list event) (c : conf) (i : nat) (o : fop) (x : tst) (mp : gmap gostr gval) (len : Z) (pc : nat -> tst) (mp' : gmap gostr gval) (len' : Z) (ev : list event) :
  (forall i o, os !! i = Some o -> c_th c !! i = tprog o (pc i)) -> (forall i, os !! i = None -> c_th c !! i = None) ->
  (forall i cl, EInv i cl ∈ p -> pc i <> T0) -> (forall i, pc i <> T0 -> exists cl, EInv i cl ∈ p) -> (forall i r, ERet i r ∈ p -> pc i = T8) ->
  (forall i o, os !! i = Some o -> (early (pc i) -> fits mp o) /\ (pc i = T4 -> fst o = false)) ->
  n0 - over false pc 0 os <= len <= n0 + over true pc 0 os -> (drops os = 0 -> 0 < over true pc 0 os -> n0 < len) -> (adds os = 0 -> 0 < over false pc 0 os -> len < n0) ->
  (forall i o n, os !! i = Some o -> pc i = T6 n -> n0 - over false pc 0 os <= n <= n0 + over true pc 0 os) ->
  os !! i = Some o -> x <> T0 -> pc i <> T8 -> (pc i <> T0 \/ exists cl, EInv i cl ∈ ev) -> (forall j cl, EInv j cl ∈ ev -> j = i) -> (forall j r, ERet j r ∈ ev -> j = i /\ x = T8) ->
  (early x -> fits mp' o) -> (x = T4 -> fst o = false) -> (forall j o', j <> i -> os !! j = Some o' -> fits mp o' -> fits mp' o') ->
  (len' = len /\ fin x = fin (pc i) \/ exists n, pc i = T6 n /\ len' = n + delta o /\ fin x = true) -> (forall n, x = T6 n -> n0 - over false pc 0 os <= n <= n0 + over true pc 0 os) ->
  minv os n0 (p ++ ev) (Conf (wa mp' len') (match tprog o x with Some y => <[i := y]> (c_th c) | None => delete i (c_th c) end)).
Proof.
  intros A2 A3 A4 A5 A6 A7 A8 A9 A10 A11 Hi B1 B2 B3 B4 B5 B6 B7 B8 B9 B10.
  assert (Hi0 : os !! (i - 0)%nat = Some o) by (rewrite Nat.sub_0_r; exact Hi).
  assert (HT : over true (tmove pc i x) 0 os = over true pc 0 os + (if fst o then (if fin x then 1 else 0) - (if fin (pc i) then 1 else 0) else 0)).
  { rewrite (over_in true pc i x o os 0) by (auto; lia). destruct (fst o); reflexivity. }
  assert (HF : over false (tmove pc i x) 0 os = over false pc 0 os + (if fst o then 0 else (if fin x then 1 else 0) - (if fin (pc i) then 1 else 0))).
  { rewrite (over_in false pc i x o os 0) by (auto; lia). destruct (fst o); reflexivity. }
  pose proof (over_range true pc os 0) as RT. pose proof (over_range false pc os 0) as RF.
  assert (Da : Z.of_nat (length (List.filter (fun o => Bool.eqb (fst o) false) os)) = drops os).
  { reflexivity. }
  assert (Aa : Z.of_nat (length (List.filter (fun o => Bool.eqb (fst o) true) os)) = adds os).
  { unfold adds. do 2 f_equal. apply filter_ext. intros [[] g]; reflexivity. }
  rewrite Da in RF. rewrite Aa in RT.
  pose proof (over_range true (tmove pc i x) os 0) as RT'. pose proof (over_range false (tmove pc i x) os 0) as RF'. rewrite Da in RF'. rewrite Aa in RT'.
  exists mp', len', (tmove pc i x). split; [reflexivity|]. split; [|split; [|split; [|split; [|split; [|split; [|split; [|split; [|split]]]]]]]].
  - intros j o' Hj. cbn [c_th]. destruct (decide (j = i)) as [->|Hne].
    + rewrite tmove_eq. rewrite Hi in Hj. injection Hj as <-. destruct (tprog o x); [apply lookup_insert|apply lookup_delete].
    + rewrite tmove_ne by auto. destruct (tprog o x); [rewrite lookup_insert_ne by auto|rewrite lookup_delete_ne by auto]; auto.
  - intros j Hj. cbn [c_th]. assert (j <> i) by congruence. destruct (tprog o x); [rewrite lookup_insert_ne by auto|rewrite lookup_delete_ne by auto]; auto.
  - intros j cl Hj. destruct (decide (j = i)) as [->|Hne]; [rewrite tmove_eq; exact B1|rewrite tmove_ne by auto]. apply elem_of_app in Hj as [Hj|Hj]; [eauto|]. exfalso. eauto.
  - intros j Hj. destruct (decide (j = i)) as [->|Hne].
    + destruct B3 as [H|[cl H]]; [destruct (A5 _ H) as [cl H']|]; exists cl; apply elem_of_app; auto.
    + rewrite tmove_ne in Hj by auto. destruct (A5 _ Hj) as [cl H]. exists cl. apply elem_of_app; auto.
  - intros j r Hj. apply elem_of_app in Hj as [Hj|Hj].
    + pose proof (A6 _ _ Hj) as Hb. assert (j <> i) by (intros ->; exact (B2 Hb)). rewrite tmove_ne by auto. exact Hb.
    + destruct (B5 _ _ Hj) as (-> & H). rewrite tmove_eq. exact H.
  - intros j o' Hj. destruct (decide (j = i)) as [->|Hne].
    + rewrite tmove_eq. rewrite Hi in Hj. injection Hj as <-. auto.
    + rewrite tmove_ne by auto. destruct (A7 _ _ Hj) as [C1 C2]. split; [|exact C2]. intros Hy. apply (B8 j o' Hne Hj). auto.
  - rewrite HT, HF. destruct B9 as [[-> ->]|(n & Hn & -> & Hx)].
    + destruct (fst o), (fin (pc i)); lia.
    + pose proof (A11 _ _ _ Hi Hn). rewrite Hn, Hx. unfold delta. cbn [fin]. destruct (fst o); lia.
  - rewrite HT. intros Hz. destruct B9 as [[-> ->]|(n & Hn & -> & Hx)].
    + intros. apply (A9 Hz). destruct (fst o), (fin (pc i)); lia.
    + intros _. pose proof (A11 _ _ _ Hi Hn). rewrite HF, Hn, Hx in RF'. cbn [fin] in RF'. unfold delta. destruct (fst o); lia.
  - rewrite HF. intros Hz. destruct B9 as [[-> ->]|(n & Hn & -> & Hx)].
    + intros. apply (A10 Hz). destruct (fst o), (fin (pc i)); lia.
    + intros _. pose proof (A11 _ _ _ Hi Hn). rewrite HT, Hn, Hx in RT'. cbn [fin] in RT'. unfold delta. destruct (fst o); lia.
  - intros j o' n Hj Hn. assert (H : n0 - over false pc 0 os <= n <= n0 + over true pc 0 os).
    { destruct (decide (j = i)) as [->|Hne]; [rewrite tmove_eq in Hn; eauto|rewrite tmove_ne in Hn by auto; eauto]. }
    rewrite HT, HF. destruct B9 as [[_ ->]|(n' & Hn' & _ & ->)]; [destruct (fst o), (fin (pc i)); lia|]. rewrite Hn'. cbn [fin]. destruct (fst o); lia.
Qed.
Lemma mixed_inv os : forall i0 i cl, EInv i cl ∈ mixed k v i0 os -> (i0 <= i)%nat /\ exists o, os !! (i - i0)%nat = Some o /\ cl = op_call k v o.
Proof.
  induction os as [|o os IH]; intros i0 i cl H; [inversion H|]. cbn [mixed] in H. apply elem_of_cons in H as [[= -> ->]|H].
  - split; [lia|]. exists o. rewrite Nat.sub_diag. auto.
  - apply elem_of_cons in H as [[=]|H]. destruct (IH _ _ _ H) as (H1 & g & H2 & ->). split; [lia|]. exists g. split; [|reflexivity].
    replace (i - i0)%nat with (S (i - S i0))%nat by lia. exact H2.
Qed.
Lemma mixed_ret os : forall i0 i r, ERet i r ∈ mixed k v i0 os -> (i0 <= i)%nat.
Proof.
  induction os as [|o os IH]; intros i0 i cl H; [inversion H|]. cbn [mixed] in H. apply elem_of_cons in H as [[=]|H]. apply elem_of_cons in H as [[= -> ->]|H]; [lia|]. apply IH in H. lia.
Qed.
Lemma mixed_nodup os : forall i0, NoDup (mixed k v i0 os).
Proof.
  induction os as [|o os IH]; intros i0; cbn [mixed]; [constructor|]. constructor; [|constructor; [|apply IH]].
  - intros H. apply elem_of_cons in H as [[=]|H]. apply mixed_inv in H as [H _]. lia.
  - intros H. apply mixed_ret in H. lia.
Qed.
Lemma mixed_notick os : forall i0 t, ETick t ∉ mixed k v i0 os.
Proof. induction os as [|o os IH]; intros i0 t H; [inversion H|]. cbn [mixed] in H. apply elem_of_cons in H as [[=]|H]. apply elem_of_cons in H as [[=]|H]. exact (IH _ _ H). Qed.
Lemma mixed_has os : forall i0 i o, os !! i = Some o -> ERet (i0 + i) (RInt (1, None)) ∈ mixed k v i0 os.
Proof.
  induction os as [|g os IH]; intros i0 [|i] o H; try discriminate; cbn [mixed].
  - rewrite Nat.add_0_r. apply elem_of_list_further, elem_of_list_here.
  - rewrite Nat.add_succ_r. apply elem_of_list_further, elem_of_list_further. apply (IH (S i0) i o H).
Qed.
Lemma map_at (os : list fop) : forall j o, os !! j = Some o -> map snd os !! j = Some (snd o).
Proof. induction os as [|p r IH]; intros [|j] o H; try discriminate; cbn in *; [injection H as ->; reflexivity|apply IH, H]. Qed.
Ltac nev := solve [intros ? ? HH; first [inversion HH; fail|apply elem_of_list_singleton in HH; congruence]].
Ltac msol := try discriminate; try tauto; try nev; try (intros []; fail); try (left; split; reflexivity).
Lemma minv_step os n0 p a c c' ev rest : NoDup (map snd os) -> - 2 ^ 63 <= n0 - Z.of_nat (length os) -> n0 + Z.of_nat (length os) < 2 ^ 63 ->
  minv os n0 p c -> cstep a c = Some (c', ev) -> p ++ ev ++ rest ≡ₚ mixed k v 0 os -> minv os n0 (p ++ ev) c'.
Proof.
  intros Hnd Hlo Hhi (mp & len & pc & A1 & A2 & A3 & A4 & A5 & A6 & A7 & A8 & A9 & A10 & A11) E P.
  destruct a as [i cl|i|i|t]; cbn [cstep] in E.
  - destruct (c_th c !! i) eqn:Ei; [discriminate|]. injection E as <- <-.
    assert (Hin : EInv i cl ∈ mixed k v 0 os) by (rewrite <- P, !elem_of_app, ?elem_of_list_singleton; auto). destruct (mixed_inv _ _ _ _ Hin) as (_ & o & Ho & ->). rewrite Nat.sub_0_r in Ho.
    assert (Hpc : pc i = T0).
    { assert (pc i = T0 \/ pc i <> T0) as [H|H] by (destruct (pc i); [left; reflexivity|right; discriminate..]); [exact H|exfalso]. destruct (A5 _ H) as [cl' H'].
      assert (Hin' : EInv i cl' ∈ mixed k v 0 os) by (rewrite <- P, !elem_of_app, ?elem_of_list_singleton; auto). destruct (mixed_inv _ _ _ _ Hin') as (_ & o' & Ho' & ->). rewrite Nat.sub_0_r, Ho in Ho'. injection Ho' as <-.
      pose proof (mixed_nodup os 0) as N. rewrite <- P in N. apply list.NoDup_app in N as (_ & N & _). apply (N _ H'). apply elem_of_app. left. apply elem_of_list_here. }
    rewrite A1. replace (call_prog (op_call k v o)) with (if fst o then q1 k v (snd o) else d1 k (snd o)) by (unfold op_call; destruct (fst o); reflexivity).
    apply (minv_move os n0 p c i o T1 mp len pc mp len [EInv i (op_call k v o)] A2 A3 A4 A5 A6 A7 A8 A9 A10 A11 Ho); rewrite ?Hpc; msol.
    + right. eexists. apply elem_of_list_here.
    + intros _. apply (A7 _ _ Ho). rewrite Hpc. exact I.
  - destruct (c_th c !! i) as [pr|] eqn:Ei; [|discriminate]. destruct pr as [|g]; [discriminate|].
    assert (exists o, os !! i = Some o) as [o Ho] by (destruct (os !! i) eqn:Ef; [eauto|rewrite (A3 _ Ef) in Ei; discriminate]).
    rewrite (A2 _ _ Ho) in Ei. destruct (A7 _ _ Ho) as [Hfit H4].
    assert (G : forall q w' p', tprog o (pc i) = Some q -> go1 q (wa mp len) w' p' -> ev = [] /\ c' = Conf w' (<[i := p']> (c_th c))).
    { intros q w' p' Hq (g' & -> & Eg). rewrite Hq in Ei. injection Ei as <-. rewrite A1, Eg in E. injection E as <- <-. auto. }
    assert (M : forall (x : tst) (y : prog reply) (mp' : gmap gostr gval) (len' : Z), tprog o x = Some y -> x <> T0 -> pc i <> T8 -> pc i <> T0 ->
      (early x -> fits mp' o) -> (x = T4 -> fst o = false) -> (forall j o', j <> i -> os !! j = Some o' -> fits mp o' -> fits mp' o') ->
      (len' = len /\ fin x = fin (pc i) \/ exists n, pc i = T6 n /\ len' = n + delta o /\ fin x = true) -> (forall n, x = T6 n -> n0 - over false pc 0 os <= n <= n0 + over true pc 0 os) ->
      minv os n0 (p ++ []) (Conf (wa mp' len') (<[i := y]> (c_th c)))).
    { intros x y mp' len' Hy C1 C2 C3 C4 C5 C6 C7 C8. pose proof (minv_move os n0 p c i o x mp len pc mp' len' [] A2 A3 A4 A5 A6 A7 A8 A9 A10 A11 Ho) as D. rewrite Hy in D. apply D; auto; nev. }
    assert (Hoth : forall j o', j <> i -> os !! j = Some o' -> fits mp o' -> fits (act_on o mp) o').
    { intros j o' Hne Hj. apply fits_other. intros Heq. apply Hne. apply (NoDup_lookup (map snd os) j i (snd o) Hnd); [rewrite <- Heq|]; apply map_at; assumption. }
    destruct (pc i) as [| | | | | |n| |] eqn:Hpc; try discriminate.
    + assert (Q : go1 (if fst o then q1 k v (snd o) else d1 k (snd o)) (wa mp len) (wa mp len) (if fst o then q2 k v l (snd o) else d2 k (snd o) l)) by (destruct (fst o); [exact (go_1 w0 k v l d Hd Hk _ mp len)|exact (sd_1 w0 k _ l d Hd Hk mp len)]).
      destruct (G _ _ _ eq_refl Q) as [-> ->]. apply (M T2 _ mp len eq_refl); msol; try (intros _; apply Hfit; exact I).
    + assert (Q : go1 (if fst o then q2 k v l (snd o) else d2 k (snd o) l) (wa mp len) (wa mp len) (if fst o then q3 v l (snd o) else d3 (snd o) l)) by (destruct (fst o); [exact (go_2 w0 k v l e He Hek _ mp len)|exact (sd_2 w0 k _ l e He Hek mp len)]).
      destruct (G _ _ _ eq_refl Q) as [-> ->]. apply (M T3 _ mp len eq_refl); msol; try (intros _; apply Hfit; exact I).
    + pose proof (Hfit I) as Hf. unfold fits in Hf. destruct o as [[] f]; cbn [fst snd] in Hf.
      * destruct (G _ _ _ eq_refl (go_3 w0 v l f mp len Hf)) as [-> ->]. apply (M T5 (t5 (true, f)) (<[f := try_int64 v]> mp) len eq_refl); msol.
      * destruct Hf as [x Hx]. destruct (G _ _ _ eq_refl (sd_3s w0 f l mp len x Hx)) as [-> ->]. apply (M T4 _ mp len eq_refl); msol; try (intros _; exists x; exact Hx).
    + specialize (H4 eq_refl). destruct o as [b f]. cbn [fst] in H4. subst b.
      destruct (G _ _ _ eq_refl (sd_4 w0 f l mp len)) as [-> ->]. apply (M T5 (t5 (false, f)) (delete f mp) len eq_refl); msol.
    + destruct (G _ _ _ eq_refl (st_5 o mp len)) as [-> ->]. apply (M (T6 len) _ mp len eq_refl); msol. intros n [= <-]. exact A8.
    + destruct (G _ _ _ eq_refl (st_6 o mp len n)) as [-> ->]. pose proof (A11 _ _ _ Ho Hpc) as Hn.
      assert (Hbd : - 2 ^ 63 <= n + delta o < 2 ^ 63).
      { pose proof (over_range true (tmove pc i T7) os 0) as RT. pose proof (over_range false (tmove pc i T7) os 0) as RF.
        rewrite (over_in true pc i T7 o os 0) in RT by (rewrite ?Nat.sub_0_r; auto; lia). rewrite (over_in false pc i T7 o os 0) in RF by (rewrite ?Nat.sub_0_r; auto; lia). rewrite Hpc in RT, RF. cbn [fin] in RT, RF.
        assert (Hl : forall h : fop -> bool, Z.of_nat (length (List.filter h os)) <= Z.of_nat (length os)) by (intros h; apply inj_le; clear; induction os as [|a r IH]; [reflexivity|cbn; destruct (h a); cbn; lia]).
        match type of RT with _ <= _ <= Z.of_nat (length (List.filter ?h _)) => pose proof (Hl h : Z.of_nat (length (List.filter h os)) <= _) as L1; remember (length (List.filter h os)) as X end. match type of RF with _ <= _ <= Z.of_nat (length (List.filter ?h _)) => pose proof (Hl h : Z.of_nat (length (List.filter h os)) <= _) as L2; remember (length (List.filter h os)) as Y end. unfold delta. destruct (fst o); cbn [Bool.eqb] in RT, RF; lia. }
      rewrite wrap_in by exact Hbd. apply (M T7 t7 mp (n + delta o) eq_refl); msol. right. exists n. auto.
  - destruct (c_th c !! i) as [pr|] eqn:Ei; [|discriminate]. destruct pr as [r|]; [|discriminate]. injection E as <- <-.
    assert (exists o, os !! i = Some o) as [o Ho] by (destruct (os !! i) eqn:Ef; [eauto|rewrite (A3 _ Ef) in Ei; discriminate]).
    rewrite (A2 _ _ Ho) in Ei. assert (Hpc : pc i = T7).
    { destruct o as [[] f], (pc i); try discriminate; reflexivity. }
    rewrite A1. apply (minv_move os n0 p c i o T8 mp len pc mp len [ERet i r] A2 A3 A4 A5 A6 A7 A8 A9 A10 A11 Ho); rewrite ?Hpc; msol.
    + left. discriminate.
    + intros j r' H. apply elem_of_list_singleton in H. injection H as -> ->. auto.
  - destruct (w_now (c_w c) <=? t); [|discriminate]. injection E as <- <-. exfalso. apply (mixed_notick os 0 t). rewrite <- P. rewrite !elem_of_app, elem_of_list_singleton. auto.
Qed.
Lemma minv_exec os n0 s : NoDup (map snd os) -> - 2 ^ 63 <= n0 - Z.of_nat (length os) -> n0 + Z.of_nat (length os) < 2 ^ 63 -> forall p c c' evs,
  minv os n0 p c -> cexec s c = Some (c', evs) -> p ++ evs ≡ₚ mixed k v 0 os -> minv os n0 (p ++ evs) c'.
Proof.
  intros H1 H2 H3. induction s as [|a s IH]; intros p c c' evs HI E P; cbn [cexec] in E; [injection E as <- <-; rewrite app_nil_r; exact HI|].
  destruct (cstep a c) as [[c1 e1]|] eqn:E1; [|discriminate]. destruct (cexec s c1) as [[c2 e2]|] eqn:E2; [|discriminate]. injection E as <- <-.
  rewrite app_assoc. apply (IH _ c1); [|exact E2|rewrite <- app_assoc; exact P]. exact (minv_step os n0 p a c c1 e1 e2 H1 H2 H3 HI E1 P).
Qed.
End mixed.

(** The counts that are possible. *)
Theorem C203_exact_partial w0 k v l n0 fs0 (os : list fop) n :
  ready w0 -> stored w0 k = Some (VHash l) -> deadline w0 k = None ->
  answer (w_now w0) (CHLen k) w0 = Some (RInt (n0, None)) -> answer (w_now w0) (CHKeys k) w0 = Some (RList (fs0, None)) ->
  NoDup (map snd os) -> os <> [] -> (forall f, (true, f) ∈ os -> f ∉ fs0) -> (forall f, (false, f) ∈ os -> f ∈ fs0) -> - 2 ^ 63 <= n0 - zlen os -> n0 + zlen os < 2 ^ 63 ->
  (exists s c evs, cexec s (start w0) = Some (c, evs) /\ evs ≡ₚ mixed k v 0 os /\ answer (w_now (c_w c)) (CHLen k) (c_w c) = Some (RInt (n, None))) <->
  n0 - drops os <= n <= n0 + adds os /\ (n <> n0 \/ (0 < adds os /\ 0 < drops os)).
Proof.
  intros Hr Hs Hdl Hn0 Hf0 Hnd Hne Hnew Hold Hlo Hhi.
  assert (HI0 : inv k l (fun _ => True) w0) by (apply (start_inv w0 k [] l (fun _ => True)); auto).
  destruct (hkeys_now k l (w_now w0) w0 HI0) as (fs1 & ob & Ho & Hk1 & _). rewrite Hf0 in Hk1. injection Hk1 as <-.
  destruct HI0 as (d & e & o' & Hd & He & Hk & Hek & Ho' & Huniq & Hnx & _). rewrite Ho in Ho'. injection Ho' as <-.
  assert (Hlen : forall t w mp len, w = wat w0 l mp len -> answer t (CHLen k) w = Some (RInt (len, None))).
  { intros t w mp len ->. unfold answer, run_call. cbn -[wat]. change (w_data (set_now (wat w0 l mp len) t)) with (w_data w0). unfold wat. cbn. rewrite Hd, Hk. cbn. rewrite He, Hek. cbn. rewrite lookup_insert. reflexivity. }
  assert (Hw : w0 = wat w0 l (h_map ob) (h_len ob)). { unfold wat. rewrite insert_id by (rewrite Ho; destruct ob; reflexivity). destruct w0; reflexivity. }
  assert (h_len ob = n0) as Hol. { rewrite (Hlen _ w0 _ _ Hw) in Hn0. injection Hn0 as <-. reflexivity. }
  assert (Hkeys : forall f, f ∈ fs0 <-> is_Some (h_map ob !! f)).
  { revert Hf0. clear - Hd He Ho Hk Hek. destruct w0 as [wd we wh wn b m t0]. cbn in Hd, He, Ho. subst wd we. unfold answer, run_call. cbn [call_prog]. unfold pmap, m_hkeys, get_hash_entry. unfold set_now. cbn [w_data w_exp w_heap w_next w_writer w_readers w_now].
    rewrite !eval_bind, ev_c_get. unfold dead. rewrite Hek, Hk, ev_ret, eval_bind. rewrite (ev_h_range _ _ _ _ _ _ _ _ _ Ho). cbn. intros [= <-] f. split.
    - intros H. apply elem_of_list_fmap in H as ([g x] & -> & Hg). exists x. apply elem_of_map_to_list in Hg. exact Hg.
    - intros [x Hx]. apply elem_of_list_fmap. exists (f, x). split; [reflexivity|]. apply elem_of_map_to_list, Hx. }
  assert (Hfit : forall o, o ∈ os -> fits (h_map ob) o).
  { intros [[] f] Hin; unfold fits; cbn [fst snd]; [|apply Hkeys, Hold, Hin]. destruct (h_map ob !! f) eqn:Ef; [|reflexivity]. exfalso. apply (Hnew _ Hin), Hkeys. rewrite Ef. eauto. }
  assert (Hsum : adds os + drops os = zlen os).
  { unfold adds, drops, zlen. clear. induction os as [|[[] f] r IH]; cbn; lia. }
  assert (Hpos : 0 < zlen os) by (destruct os; [congruence|unfold zlen; cbn; lia]).
  assert (Ha0 : 0 <= adds os) by (unfold adds; lia). assert (Hd0 : 0 <= drops os) by (unfold drops; lia).
  split.
  - intros (s & c & evs & E & P & Ha). unfold zlen in *.
    assert (HT : minv w0 k v l os n0 [] (start w0)).
    { assert (Hz : forall b r i, over b (fun _ => T0) i r = 0) by (intros b r; induction r as [|o r IH]; intros i; [reflexivity|]; cbn; rewrite IH, andb_false_r; reflexivity).
      exists (h_map ob), (h_len ob), (fun _ => T0). rewrite !Hz. cbn [start c_w c_th]. split; [exact Hw|]. split; [|split; [|split; [|split; [|split; [|split; [|split; [|split; [|split]]]]]]]].
      - intros. apply lookup_empty.
      - intros. apply lookup_empty.
      - intros i cl H. inversion H.
      - congruence.
      - intros i r H. inversion H.
      - intros i o Hi. split; [|discriminate]. intros _. apply Hfit. apply elem_of_list_lookup. eauto.
      - lia.
      - lia.
      - lia.
      - discriminate. }
    pose proof (minv_exec w0 k v l d e Hd He Hk Hek os n0 s Hnd Hlo Hhi [] (start w0) c evs HT E P) as (mp & len & pc & A1 & _ & _ & _ & _ & A6 & _ & A8 & A9 & A10 & _).
    rewrite (Hlen _ _ _ _ A1) in Ha. injection Ha as <-.
    assert (Hend : forall i o, os !! i = Some o -> pc (0 + i)%nat = T8).
    { intros i o Hi. apply (A6 _ (RInt (1, None))). cbn [app]. rewrite P. exact (mixed_has k v os 0 i o Hi). }
    pose proof (over_end true pc os 0 Hend) as ET. pose proof (over_end false pc os 0 Hend) as EF.
    assert (Da : Z.of_nat (length (List.filter (fun o : fop => Bool.eqb (fst o) false) os)) = drops os) by reflexivity.
    assert (Aa : Z.of_nat (length (List.filter (fun o : fop => Bool.eqb (fst o) true) os)) = adds os).
    { unfold adds. do 2 f_equal. apply filter_ext. intros [[] g]; reflexivity. }
    assert (ET' : over true pc 0 os = adds os) by (rewrite ET; exact Aa). assert (EF' : over false pc 0 os = drops os) by (rewrite EF; exact Da).
    rewrite ET', EF' in *. split; [exact A8|]. destruct (Z.eq_dec (adds os) 0) as [Ea|Ea]; [left; pose proof (A10 Ea); lia|]. destruct (Z.eq_dec (drops os) 0) as [Ed|Ed]; [left; pose proof (A9 Ed); lia|]. right. lia.
  - intros (Hn & Hn'). unfold zlen in *.
    set (L := nums 0 os). set (SS := List.filter (fun x : nat * fop => fst (snd x)) L). set (DD := List.filter (fun x : nat * fop => negb (fst (snd x))) L).
    assert (PL : SS ++ DD ≡ₚ L).
    { unfold SS, DD. clear. induction L as [|[i [[] f]] r IH]; cbn; [reflexivity|rewrite IH; reflexivity|]. rewrite <- Permutation_middle, IH. reflexivity. }
    assert (LS : Z.of_nat (length SS) = adds os).
    { unfold SS, L, adds. clear. generalize 0%nat. induction os as [|[[] f] r IH]; intros i; cbn; [reflexivity|specialize (IH (S i)); lia|apply IH]. }
    assert (LD : Z.of_nat (length DD) = drops os).
    { unfold DD, L, drops. clear. generalize 0%nat. induction os as [|[[] f] r IH]; intros i; cbn; [reflexivity|apply IH|specialize (IH (S i)); lia]. }
    assert (TS : forall xs, (forall x, x ∈ xs -> x ∈ SS) -> total xs = Z.of_nat (length xs)).
    { induction xs as [|x xs IH]; intros H; [reflexivity|]. cbn [total fold_right length]. fold (total xs). rewrite IH by (intros y Hy; apply H, elem_of_list_further, Hy).
      assert (Hx : fst (snd x) = true) by (specialize (H x (elem_of_list_here _ _)); apply elem_of_list_In, List.filter_In in H; tauto). unfold delta. rewrite Hx. lia. }
    assert (TD : forall xs, (forall x, x ∈ xs -> x ∈ DD) -> total xs = - Z.of_nat (length xs)).
    { induction xs as [|x xs IH]; intros H; [reflexivity|]. cbn [total fold_right length]. fold (total xs). rewrite IH by (intros y Hy; apply H, elem_of_list_further, Hy).
      assert (Hx : fst (snd x) = false) by (specialize (H x (elem_of_list_here _ _)); apply elem_of_list_In, List.filter_In in H as [_ H]; destruct (fst (snd x)); [discriminate|reflexivity]). unfold delta. rewrite Hx. lia. }
    assert (G : exists h rest tail, h :: rest ++ tail ≡ₚ L /\ total (h :: tail) = n - n0).
    { destruct (Z.lt_trichotomy n n0) as [H|[H|H]].
      - set (m := Z.to_nat (n0 - n)). rewrite <- (firstn_skipn m DD) in PL. assert (Hm : length (firstn m DD) = m) by (rewrite firstn_length; lia).
        assert (Hsub : forall x, x ∈ firstn m DD -> x ∈ DD) by (intros x Hx; rewrite <- (firstn_skipn m DD); apply elem_of_app; auto).
        pose proof (TD _ Hsub) as T. destruct (firstn m DD) as [|h tl] eqn:Em; [cbn in Hm; lia|]. exists h, (SS ++ skipn m DD), tl. split; [|etransitivity; [exact T|rewrite Hm; lia]].
        rewrite <- PL. cbn. rewrite <- Permutation_middle. apply perm_skip. rewrite <- app_assoc. apply Permutation_app_head, Permutation_app_comm.
      - destruct Hn' as [Hn'|[H1 H2]]; [congruence|]. destruct SS as [|a SS'] eqn:ES; [cbn in LS; lia|]. destruct DD as [|b DD'] eqn:ED; [cbn in LD; lia|].
        exists a, (SS' ++ DD'), [b]. split.
        + rewrite <- PL. cbn. apply perm_skip. rewrite <- app_assoc. apply Permutation_app_head. rewrite Permutation_app_comm. reflexivity.
        + pose proof (TS [a] ltac:(intros x Hx; apply elem_of_list_singleton in Hx as ->; apply elem_of_list_here)) as T1. pose proof (TD [b] ltac:(intros x Hx; apply elem_of_list_singleton in Hx as ->; apply elem_of_list_here)) as T2.
          cbn in T1, T2 |- *. lia.
      - set (m := Z.to_nat (n - n0)). rewrite <- (firstn_skipn m SS) in PL. assert (Hm : length (firstn m SS) = m) by (rewrite firstn_length; lia).
        assert (Hsub : forall x, x ∈ firstn m SS -> x ∈ SS) by (intros x Hx; rewrite <- (firstn_skipn m SS); apply elem_of_app; auto).
        pose proof (TS _ Hsub) as T. destruct (firstn m SS) as [|h tl] eqn:Em; [cbn in Hm; lia|]. exists h, (skipn m SS ++ DD), tl. split; [|etransitivity; [exact T|rewrite Hm; lia]].
        rewrite <- PL. cbn. apply perm_skip. rewrite <- !app_assoc. rewrite (Permutation_app_comm tl), <- app_assoc. reflexivity. }
    destruct G as (h & rest & tl & PG & TG).
    destruct (exec_mixed w0 k v l d e Hd He Hk Hek os (h_map ob) (h_len ob) h rest tl PG Hnd Hfit) as (s & mp' & evs & E & P); [lia|lia|].
    eexists s, _, evs. split; [|split].
    + unfold start. rewrite Hw at 1. exact E.
    + exact P.
    + cbn [c_w]. erewrite Hlen by reflexivity. do 3 f_equal. cbn [total fold_right] in TG. fold (total tl) in TG. lia.
Qed.
(** The demo's hash h has the one field f: adding x while f is deleted can leave the counts 0, 1 and 2; only 1 is right. *)
Theorem C203_refuted : forall n, 0 <= n <= 2 -> exists s c evs, cexec s (start demo) = Some (c, evs) /\ evs ≡ₚ mixed (bs "h") (bs "1") 0 [(true, bs "x"); (false, bs "f")] /\
  answer (w_now (c_w c)) (CHLen (bs "h")) (c_w c) = Some (RInt (n, None)).
Proof.
  intros n Hn. destruct C155_nonvacuous as ((l & Hl) & _). apply (C203_exact_partial demo (bs "h") (bs "1") l 1 [bs "f"] [(true, bs "x"); (false, bs "f")] n).
  - apply demo_ready.
  - exact Hl.
  - apply C155_nonvacuous.
  - vm_compute; reflexivity.
  - vm_compute; reflexivity.
  - repeat constructor; vm_compute; [|intros H; inversion H]. intros H. inversion H as [|? ? ? H1]; subst. inversion H1.
  - discriminate.
  - intros f H. apply elem_of_cons in H as [[= ->]|H]; [|apply elem_of_list_singleton in H; discriminate]. intros H. apply elem_of_list_singleton in H. discriminate.
  - intros f H. apply elem_of_cons in H as [[=]|H]. apply elem_of_list_singleton in H. injection H as ->. apply elem_of_list_here.
  - vm_compute. discriminate.
  - reflexivity.
  - change (drops _) with 1. change (adds _) with 1. lia.
Qed.
Example C203_nonvacuous : ready demo /\ (exists l, stored demo (bs "h") = Some (VHash l)) /\ deadline demo (bs "h") = None /\
  answer 8 (CHLen (bs "h")) demo = Some (RInt (1, None)) /\ answer 8 (CHKeys (bs "h")) demo = Some (RList ([bs "f"], None)).
Proof. split; [apply demo_ready|]. split; [apply C155_nonvacuous|]. split; [apply C155_nonvacuous|]. split; vm_compute; reflexivity. Qed.
Print Assumptions C203_exact_partial.
