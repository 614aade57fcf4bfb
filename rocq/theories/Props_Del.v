(** * Props_Del: who is told 1 when several goroutines HDel one field (C202) *)
From stdpp Require Import relations.
From Verif Require Import Base GoFloat CacheModel CacheSpec CacheAbs CacheRefine CacheRefineH CacheMain CacheLib CacheConc ConcLin ConcSafe ConcDl ConcHash ConcLen.
From Verif Require Import Props_String Props_Counter Props_Hash Props_Conc Props_Conc4 Props_Conc5 Props_Lost.

(** Goroutine i calls HDel for the field [f], once, and is told the i-th number; [i] is the number of the first goroutine. *)
Fixpoint dels (k f : gostr) (i : nat) (ys : list Z) : list event :=
  match ys with
  | [] => []
  | b :: r => EInv i (CHDel k [f]) :: ERet i (RInt (b, None)) :: dels k f (S i) r
  end.
(** the goroutines told [b] *)
Fixpoint told (b : Z) (i : nat) (ys : list Z) : list nat :=
  match ys with [] => [] | y :: r => if Z.eq_dec y b then i :: told b (S i) r else told b (S i) r end.
Lemma told_ge b ys : forall i j, j ∈ told b i ys -> (i <= j)%nat.
Proof.
  induction ys as [|y r IH]; intros i j H; [inversion H|]. cbn in H. destruct (Z.eq_dec y b); [apply elem_of_cons in H as [->|H]; [lia|]|]; apply IH in H; lia.
Qed.
Lemma told_nodup b ys : forall i, NoDup (told b i ys).
Proof.
  induction ys as [|y r IH]; intros i; cbn; [constructor|]. destruct (Z.eq_dec y b); [|apply IH]. constructor; [|apply IH]. intros H. apply told_ge in H. lia.
Qed.
Lemma told_len b ys : forall i, length (told b i ys) = count_occ Z.eq_dec ys b.
Proof. induction ys as [|y r IH]; intros i; [reflexivity|]. cbn. destruct (Z.eq_dec y b); cbn; rewrite IH; reflexivity. Qed.
Lemma dels_told k f ys : forall i, (forall b, b ∈ ys -> b = 0 \/ b = 1) ->
  dels k f i ys ≡ₚ (map (fun j => EInv j (CHDel k [f])) (told 1 i ys) ++ map (fun j => ERet j (RInt (1, None))) (told 1 i ys)) ++
                   (map (fun j => EInv j (CHDel k [f])) (told 0 i ys) ++ map (fun j => ERet j (RInt (0, None))) (told 0 i ys)).
Proof.
  induction ys as [|y r IH]; intros i H; [reflexivity|]. cbn [dels told]. rewrite IH by (intros b Hb; apply H, elem_of_list_further, Hb).
  destruct (H y (elem_of_list_here _ _)) as [->| ->]; cbn [Z.eq_dec]; repeat (destruct Z.eq_dec; [|lia] || destruct Z.eq_dec; [lia|]); cbn; solve_Permutation.
Qed.

Section del.
Context (w0 : world) (k f : gostr) (l : positive) (d : gmap gostr gval) (e : gmap gostr Z).
Context (Hd : w_data w0 = Some d) (He : w_exp w0 = Some e) (Hk : d !! k = Some (VHash l)) (Hek : e !! k = None).
Notation wa := (wat w0 l).

(** the program of HDel at its six operations *)
Definition d1 : prog reply := call_prog (CHDel k [f]).
Definition hdel_tail (n : Z) : prog (gret Z) := (if n =? 0 then Ret tt else do len <- h_get_len l; h_set_len l (wrap64 (len - n)));;; Ret (n, None).
Definition hdel_rest (h : hres) : prog (gret Z) :=
  match h with
  | HWrong => Ret (0, Some ErrWrongType)
  | HNil => Ret (0, None)
  | HEntry l => do n <- hdel_loop l [f] 0;
                (if n =? 0 then Ret tt else do len <- h_get_len l; h_set_len l (wrap64 (len - n)));;;
                Ret (n, None)
  end.
Definition d2 : prog reply :=
  pmap RInt (do h <- (do x <- (do b <- expired k; Ret (if b then None else Some (VHash l))); Ret match x with None => HNil | Some (VHash l) => HEntry l | Some _ => HWrong end); hdel_rest h).
Definition d3 : prog reply := pmap RInt (hdel_rest (HEntry l)).
Definition d4 : prog reply := pmap RInt (do n <- (h_delete l f;;; Ret 1); hdel_tail n).
Definition d5 : prog reply := pmap RInt (hdel_tail 1).
Definition d6 (n : Z) : prog reply := pmap RInt ((h_set_len l (wrap64 (n - 1)));;; Ret (1, None)).
Definition d7 (b : Z) : prog reply := Ret (RInt (b, None)).
Lemma sd_1 mp len : go1 d1 (wa mp len) (wa mp len) d2.
Proof. eexists. split; [reflexivity|]. cbn. rewrite Hd, Hk. reflexivity. Qed.
Lemma sd_2 mp len : go1 d2 (wa mp len) (wa mp len) d3.
Proof. eexists. split; [reflexivity|]. cbn. rewrite He, Hek. reflexivity. Qed.
Lemma sd_3n mp len : mp !! f = None -> go1 d3 (wa mp len) (wa mp len) (d7 0).
Proof. intros Hf. eexists. split; [reflexivity|]. cbn -[wat]. rewrite wat_l. cbn -[wat]. rewrite wat_set, Hf. reflexivity. Qed.
Lemma sd_3s mp len x : mp !! f = Some x -> go1 d3 (wa mp len) (wa mp len) d4.
Proof. intros Hf. eexists. split; [reflexivity|]. cbn -[wat fmt_string]. rewrite wat_l. cbn -[wat fmt_string]. rewrite wat_set, Hf. reflexivity. Qed.
Lemma sd_4 mp len : go1 d4 (wa mp len) (wa (delete f mp) len) d5.
Proof. eexists. split; [reflexivity|]. cbn -[wat]. rewrite wat_l. cbn -[wat]. rewrite wat_set. reflexivity. Qed.
Lemma sd_5 mp len : go1 d5 (wa mp len) (wa mp len) (d6 len).
Proof. eexists. split; [reflexivity|]. cbn -[wat wrap64]. rewrite wat_l. cbn -[wat wrap64]. rewrite wat_set. reflexivity. Qed.
Lemma sd_6 mp len n : go1 (d6 n) (wa mp len) (wa mp (wrap64 (n - 1))) (d7 1).
Proof. eexists. split; [reflexivity|]. cbn -[wat wrap64]. rewrite wat_l. cbn -[wat wrap64]. rewrite wat_set. reflexivity. Qed.

(** ** every outcome is possible: goroutines moving in step *)
Definition put (p : prog reply) (ws : list nat) (th : gmap nat (prog reply)) := foldr (fun i t => <[i := p]> t) th ws.
Lemma put_ins p q i ws th : i ∉ ws -> <[i := q]> (put p ws th) = put p ws (<[i := q]> th).
Proof.
  induction ws as [|j ws IH]; intros H; [reflexivity|]. cbn. rewrite insert_commute by (intros ->; apply H, elem_of_list_here).
  f_equal. apply IH. intros Hi. apply H, elem_of_list_further, Hi.
Qed.
Lemma put_none p ws th i : i ∉ ws -> th !! i = None -> put p ws th !! i = None.
Proof.
  induction ws as [|j ws IH]; intros H Hi; [exact Hi|]. cbn. rewrite lookup_insert_ne by (intros ->; apply H, elem_of_list_here).
  apply IH; [|exact Hi]. intros Hj. apply H, elem_of_list_further, Hj.
Qed.
Lemma ph p p' w w' ws : go1 p w w' p' -> go1 p w' w' p' -> NoDup ws -> forall th,
  cexec (map ARun ws) (Conf w (put p ws th)) = Some (Conf (match ws with [] => w | _ => w' end) (put p' ws th), []).
Proof.
  intros H1 H2. revert w H1. induction ws as [|i ws IH]; intros w H1 Hn th; [reflexivity|]. apply list.NoDup_cons in Hn as [Hi Hn].
  cbn [map cexec put foldr]. fold (put p ws th) (put p' ws th). rewrite (go_run _ _ _ _ _ _ H1), (put_ins p p' i ws th Hi), (IH w' H2 Hn), <- (put_ins p' p' i ws th Hi).
  destruct ws; reflexivity.
Qed.
Lemma ph_same p p' w ws : go1 p w w p' -> NoDup ws -> forall th, cexec (map ARun ws) (Conf w (put p ws th)) = Some (Conf w (put p' ws th), []).
Proof. intros H Hn th. rewrite (ph p p' w w ws H H Hn). destruct ws; reflexivity. Qed.
Lemma ph_inv cl w ws : NoDup ws -> forall th, (forall i, i ∈ ws -> th !! i = None) ->
  cexec (map (fun i => AInv i cl) ws) (Conf w th) = Some (Conf w (put (call_prog cl) ws th), map (fun i => EInv i cl) ws).
Proof.
  induction ws as [|i ws IH]; intros Hn th Hi; [reflexivity|]. apply list.NoDup_cons in Hn as [Hni Hn]. cbn [map cexec]. unfold cstep at 1. cbn [c_th c_w].
  rewrite (Hi i (elem_of_list_here _ _)), IH; [|exact Hn|].
  - cbn [put foldr]. fold (put (call_prog cl) ws th). rewrite put_ins by exact Hni. reflexivity.
  - intros j Hj. rewrite lookup_insert_ne by congruence. apply Hi, elem_of_list_further, Hj.
Qed.
Lemma ph_ret r w ws : NoDup ws -> forall th, (forall i, i ∈ ws -> th !! i = None) ->
  cexec (map ARet ws) (Conf w (put (Ret r) ws th)) = Some (Conf w th, map (fun i => ERet i r) ws).
Proof.
  induction ws as [|i ws IH]; intros Hn th Hi; [reflexivity|]. apply list.NoDup_cons in Hn as [Hni Hn]. cbn [map cexec put foldr]. fold (put (Ret r) ws th). unfold cstep at 1. cbn [c_th c_w].
  rewrite lookup_insert, delete_insert by (apply put_none; [exact Hni|apply Hi, elem_of_list_here]). rewrite IH; [reflexivity|exact Hn|]. intros j Hj. apply Hi, elem_of_list_further, Hj.
Qed.
(** the counts taken down one after the other *)
Definition one_by_one (ws : list nat) : list act := concat (map (fun i => [ARun i; ARun i; ARet i]) ws).
Lemma ph_order mp ws : NoDup ws -> forall th len, (forall i, i ∈ ws -> th !! i = None) -> - 2 ^ 63 <= len - Z.of_nat (length ws) -> len < 2 ^ 63 ->
  cexec (one_by_one ws) (Conf (wa mp len) (put d5 ws th)) = Some (Conf (wa mp (len - Z.of_nat (length ws))) th, map (fun i => ERet i (RInt (1, None))) ws).
Proof.
  induction ws as [|i ws IH]; intros Hn th len Hi H1 H2; [cbn; rewrite Z.sub_0_r; reflexivity|]. apply list.NoDup_cons in Hn as [Hni Hn]. cbn [length] in H1.
  change (one_by_one (i :: ws)) with (ARun i :: ARun i :: ARet i :: one_by_one ws). cbn [cexec put foldr]. fold (put d5 ws th).
  rewrite (go_run _ _ _ _ _ _ (sd_5 mp len)), (go_run _ _ _ _ _ _ (sd_6 mp len len)). unfold cstep at 1. cbn [c_th c_w]. rewrite lookup_insert. unfold d7 at 1.
  rewrite delete_insert by (apply put_none; [exact Hni|apply Hi, elem_of_list_here]). rewrite (wrap_in (len - 1)) by lia. rewrite IH; [|exact Hn| |lia|lia].
  - cbn [map length app]. do 4 f_equal. lia.
  - intros j Hj. apply Hi, elem_of_list_further, Hj.
Qed.
Lemma exec_dels us vs zs mp len x : NoDup (us ++ vs) -> NoDup zs -> vs <> [] -> mp !! f = Some x -> - 2 ^ 63 <= len - Z.of_nat (length us) - 1 -> len < 2 ^ 63 ->
  exists s evs, cexec s (Conf (wa mp len) ∅) = Some (Conf (wa (delete f mp) (len - Z.of_nat (length us) - 1)) ∅, evs) /\
    evs ≡ₚ (map (fun j => EInv j (CHDel k [f])) (us ++ vs) ++ map (fun j => ERet j (RInt (1, None))) (us ++ vs)) ++
           (map (fun j => EInv j (CHDel k [f])) zs ++ map (fun j => ERet j (RInt (0, None))) zs).
Proof.
  intros Hn Hz Hv Hx H1 H2. pose proof Hn as Hn'. apply list.NoDup_app in Hn' as (Nu & Nd & Nv).
  assert (Hne : us ++ vs <> []) by (destruct us; [exact Hv|discriminate]).
  eexists (map (fun i => AInv i (CHDel k [f])) (us ++ vs) ++ map ARun (us ++ vs) ++ map ARun (us ++ vs) ++ map ARun (us ++ vs) ++ map ARun (us ++ vs) ++
    one_by_one us ++ map ARun vs ++ map ARun vs ++ map ARet vs ++
    map (fun i => AInv i (CHDel k [f])) zs ++ map ARun zs ++ map ARun zs ++ map ARun zs ++ map ARet zs). eexists. split.
  - rewrite cexec_app, (ph_inv (CHDel k [f]) _ _ Hn) by (intros; apply lookup_empty). change (call_prog (CHDel k [f])) with d1.
    rewrite cexec_app, (ph_same d1 d2 _ _ (sd_1 mp len) Hn). rewrite cexec_app, (ph_same d2 d3 _ _ (sd_2 mp len) Hn). rewrite cexec_app, (ph_same d3 d4 _ _ (sd_3s mp len x Hx) Hn).
    assert (G : go1 d4 (wa (delete f mp) len) (wa (delete f mp) len) d5) by (pose proof (sd_4 (delete f mp) len) as G; rewrite delete_idemp in G; exact G).
    rewrite cexec_app, (ph d4 d5 _ _ _ (sd_4 mp len) G Hn).
    replace (match us ++ vs with [] => wa mp len | _ :: _ => wa (delete f mp) len end) with (wa (delete f mp) len) by (destruct (us ++ vs); [congruence|reflexivity]).
    replace (put d5 (us ++ vs) ∅) with (put d5 us (put d5 vs ∅)) by (unfold put; rewrite foldr_app; reflexivity).
    rewrite cexec_app, (ph_order _ us Nu); [| |lia|lia].
    2:{ intros i Hi. apply put_none; [exact (Nd i Hi)|apply lookup_empty]. }
    set (len1 := len - Z.of_nat (length us)).
    rewrite cexec_app, (ph_same d5 (d6 len1) _ _ (sd_5 _ len1) Nv).
    rewrite cexec_app, (ph (d6 len1) (d7 1) _ _ _ (sd_6 _ len1 len1) (sd_6 _ _ len1) Nv).
    replace (match vs with [] => wa (delete f mp) len1 | _ :: _ => wa (delete f mp) (wrap64 (len1 - 1)) end) with (wa (delete f mp) (len1 - 1)) by (rewrite wrap_in by (unfold len1; lia); destruct vs; [congruence|reflexivity]).
    unfold d7 at 1. rewrite cexec_app, (ph_ret _ _ _ Nv) by (intros; apply lookup_empty).
    rewrite cexec_app, (ph_inv (CHDel k [f]) _ _ Hz) by (intros; apply lookup_empty). change (call_prog (CHDel k [f])) with d1.
    rewrite cexec_app, (ph_same d1 d2 _ _ (sd_1 _ _) Hz). rewrite cexec_app, (ph_same d2 d3 _ _ (sd_2 _ _) Hz).
    rewrite cexec_app, (ph_same d3 (d7 0) _ _ (sd_3n _ _ (lookup_delete _ _)) Hz). unfold d7. rewrite (ph_ret _ _ _ Hz) by (intros; apply lookup_empty).
    reflexivity.
  - cbn [app]. rewrite !map_app, ?app_nil_r. rewrite <- !app_assoc. reflexivity.
Qed.

(** ** no other outcome is possible *)
Inductive dst := D0 | D1 | D2 | D3 | D4 | D5 | D6 (n : Z) | D7 (b : Z) | D8 (b : Z).
Definition dprog (s : dst) : option (prog reply) :=
  match s with D0 | D8 _ => None | D1 => Some d1 | D2 => Some d2 | D3 => Some d3 | D4 => Some d4 | D5 => Some d5 | D6 n => Some (d6 n) | D7 b => Some (d7 b) end.
Definition won (s : dst) : bool := match s with D7 b | D8 b => b =? 1 | _ => false end.
Definition late (s : dst) : Prop := match s with D5 | D6 _ | D7 _ | D8 _ => True | _ => False end.
Definition passed (s : dst) : Prop := match s with D5 | D6 _ => True | D7 b | D8 b => b = 1 | _ => False end.
Definition dmove (pc : nat -> dst) (i : nat) (x : dst) : nat -> dst := fun j => if decide (j = i) then x else pc j.
Lemma dmove_eq pc i x : dmove pc i x i = x. Proof. unfold dmove. rewrite decide_True; auto. Qed.
Lemma dmove_ne pc i x j : j <> i -> dmove pc i x j = pc j. Proof. intros. unfold dmove. rewrite decide_False; auto. Qed.
Fixpoint wins (pc : nat -> dst) (N : nat) : Z := match N with O => 0 | S m => wins pc m + (if won (pc m) then 1 else 0) end.
Lemma wins_out pc i x N : (N <= i)%nat -> wins (dmove pc i x) N = wins pc N.
Proof. induction N as [|N IH]; intros H; [reflexivity|]. cbn. rewrite dmove_ne, IH by lia. reflexivity. Qed.
Lemma wins_in pc i x N : (i < N)%nat -> wins (dmove pc i x) N = wins pc N - (if won (pc i) then 1 else 0) + (if won x then 1 else 0).
Proof.
  induction N as [|N IH]; intros H; [lia|]. cbn. destruct (decide (N = i)) as [->|Hne]; [rewrite dmove_eq, wins_out by lia; lia|rewrite dmove_ne, IH by lia; lia].
Qed.
Lemma wins_range pc N : 0 <= wins pc N <= Z.of_nat N.
Proof. induction N as [|N IH]; [cbn; lia|]. cbn [wins]. destruct (won (pc N)); lia. Qed.
Lemma wins_some pc N i : (i < N)%nat -> won (pc i) = true -> 0 < wins pc N.
Proof.
  induction N as [|N IH]; intros H Hw; [lia|]. cbn [wins]. pose proof (wins_range pc N). destruct (decide (N = i)) as [->|Hne]; [rewrite Hw; lia|].
  assert (0 < wins pc N) by (apply IH; [lia|exact Hw]). destruct (won (pc N)); lia.
Qed.
Lemma wins_end pc ys : (forall i b, ys !! i = Some b -> pc i = D8 b) -> wins pc (length ys) = Z.of_nat (count_occ Z.eq_dec ys 1).
Proof.
  induction ys as [|b ys IH] using rev_ind; intros H; [reflexivity|]. rewrite app_length, Nat.add_1_r. cbn [wins]. rewrite IH.
  - rewrite (H (length ys) b) by (rewrite lookup_app_r, Nat.sub_diag by lia; reflexivity). rewrite count_occ_app. cbn. destruct (Z.eq_dec b 1) as [->|Hb]; [cbn; lia|].
    rewrite (proj2 (Z.eqb_neq b 1) Hb). lia.
  - intros i c Hi. apply H. apply lookup_app_l_Some, Hi.
Qed.
Definition dinv (N : nat) (n0 : Z) (p : list event) (c : conf) : Prop :=
  exists mp len (pc : nat -> dst), c_w c = wa mp len /\
  (forall i, (i < N)%nat -> c_th c !! i = dprog (pc i)) /\ (forall i, (N <= i)%nat -> c_th c !! i = None) /\
  (forall i cl, EInv i cl ∈ p -> pc i <> D0) /\ (forall i, pc i <> D0 -> exists cl, EInv i cl ∈ p) /\ (forall i r, ERet i r ∈ p -> exists b, pc i = D8 b /\ r = RInt (b, None)) /\
  (forall i, (i < N)%nat -> late (pc i) -> mp !! f = None) /\ (mp !! f = None -> exists i, (i < N)%nat /\ passed (pc i)) /\
  (forall i b, pc i = D7 b \/ pc i = D8 b -> b = 0 \/ b = 1) /\
  n0 - wins pc N <= len <= n0 /\ (0 < wins pc N -> len < n0) /\ (forall i n, (i < N)%nat -> pc i = D6 n -> n0 - wins pc N <= n <= n0).
Lemma dinv_move (N : nat) (n0 : Z) (p : list event) (c : conf) (i : nat) (x : dst) (mp : gmap gostr gval) (len : Z) (pc : nat -> dst) (mp' : gmap gostr gval) (len' : Z) (ev : list event) :
  (forall j, (j < N)%nat -> c_th c !! j = dprog (pc j)) -> (forall j, (N <= j)%nat -> c_th c !! j = None) ->
  (forall j cl, EInv j cl ∈ p -> pc j <> D0) -> (forall j, pc j <> D0 -> exists cl, EInv j cl ∈ p) -> (forall j r, ERet j r ∈ p -> exists b, pc j = D8 b /\ r = RInt (b, None)) ->
  (forall j, (j < N)%nat -> late (pc j) -> mp !! f = None) -> (mp !! f = None -> exists j, (j < N)%nat /\ passed (pc j)) ->
  (forall j b, pc j = D7 b \/ pc j = D8 b -> b = 0 \/ b = 1) ->
  n0 - wins pc N <= len <= n0 -> (0 < wins pc N -> len < n0) -> (forall j n, (j < N)%nat -> pc j = D6 n -> n0 - wins pc N <= n <= n0) ->
  (i < N)%nat -> x <> D0 -> (forall b, pc i <> D8 b) -> (pc i <> D0 \/ exists cl, EInv i cl ∈ ev) -> (forall j cl, EInv j cl ∈ ev -> j = i) -> (forall j r, ERet j r ∈ ev -> j = i /\ exists b, x = D8 b /\ r = RInt (b, None)) ->
  (mp !! f = None -> mp' !! f = None) -> (mp' !! f = None -> mp !! f = None \/ passed x) -> (passed (pc i) -> passed x) -> (late x -> mp' !! f = None) ->
  (forall b, x = D7 b \/ x = D8 b -> b = 0 \/ b = 1) -> (won (pc i) = true -> won x = true) ->
  (len' = len /\ won x = won (pc i) \/ n0 - wins pc N - 1 <= len' < n0 /\ won (pc i) = false /\ won x = true) -> (forall n, x = D6 n -> n0 - wins pc N <= n <= n0) ->
  dinv N n0 (p ++ ev) (Conf (wa mp' len') (match dprog x with Some y => <[i := y]> (c_th c) | None => delete i (c_th c) end)).
Proof.
  intros A2 A3 A4 A5 A6 A7 A8 A9 A10 A11 A12 Hi B1 B2 B3 B4 B5 B6 B7 B8 B9 B10 B11 B12 B13.
  exists mp', len', (dmove pc i x). rewrite wins_in by exact Hi. split; [reflexivity|]. split; [|split; [|split; [|split; [|split; [|split; [|split; [|split; [|split; [|split]]]]]]]]].
  - intros j Hj. cbn [c_th]. destruct (decide (j = i)) as [->|Hne]; [rewrite dmove_eq; destruct (dprog x); [apply lookup_insert|apply lookup_delete]|].
    rewrite dmove_ne by auto. destruct (dprog x); [rewrite lookup_insert_ne by auto|rewrite lookup_delete_ne by auto]; auto.
  - intros j Hj. cbn [c_th]. assert (j <> i) by lia. destruct (dprog x); [rewrite lookup_insert_ne by auto|rewrite lookup_delete_ne by auto]; auto.
  - intros j cl Hj. destruct (decide (j = i)) as [->|Hne]; [rewrite dmove_eq; exact B1|rewrite dmove_ne by auto]. apply elem_of_app in Hj as [Hj|Hj]; [eauto|]. exfalso. eauto.
  - intros j Hj. destruct (decide (j = i)) as [->|Hne].
    + destruct B3 as [H|[cl H]]; [destruct (A5 _ H) as [cl H']|]; exists cl; apply elem_of_app; auto.
    + rewrite dmove_ne in Hj by auto. destruct (A5 _ Hj) as [cl H]. exists cl. apply elem_of_app; auto.
  - intros j r Hj. apply elem_of_app in Hj as [Hj|Hj].
    + destruct (A6 _ _ Hj) as (b & Hb & ->). assert (j <> i) by (intros ->; exact (B2 _ Hb)). rewrite dmove_ne by auto. eauto.
    + destruct (B5 _ _ Hj) as (-> & H). rewrite dmove_eq. exact H.
  - intros j Hj. destruct (decide (j = i)) as [->|Hne]; [rewrite dmove_eq; exact B9|rewrite dmove_ne by auto; eauto].
  - intros Hm. destruct (B7 Hm) as [H|H]; [|exists i; rewrite dmove_eq; auto]. destruct (A8 H) as (j & Hj & Hp). exists j. split; [exact Hj|].
    destruct (decide (j = i)) as [->|Hne]; [rewrite dmove_eq; auto|rewrite dmove_ne by auto; exact Hp].
  - intros j b. destruct (decide (j = i)) as [->|Hne]; [rewrite dmove_eq; apply B10|rewrite dmove_ne by auto; apply A9].
  - destruct B12 as [[-> ->]|(H & -> & ->)]; [destruct (won (pc i)); lia|lia].
  - destruct B12 as [[-> ->]|(H & -> & ->)]; [destruct (won (pc i)); intros; apply A11; lia|lia].
  - intros j n Hj Hn. assert (n0 - wins pc N <= n <= n0); [|destruct (won (pc i)), (won x); try lia; discriminate (B11 eq_refl)].
    destruct (decide (j = i)) as [->|Hne]; [rewrite dmove_eq in Hn; eauto|rewrite dmove_ne in Hn by auto; eauto].
Qed.
Lemma dels_inv ys : forall i0 i cl, EInv i cl ∈ dels k f i0 ys -> (i0 <= i < i0 + length ys)%nat /\ cl = CHDel k [f].
Proof.
  induction ys as [|b ys IH]; intros i0 i cl H; [inversion H|]. cbn [dels] in H. apply elem_of_cons in H as [[= -> ->]|H]; [cbn; split; [lia|reflexivity]|].
  apply elem_of_cons in H as [[=]|H]. destruct (IH _ _ _ H) as (H1 & ->). cbn. split; [lia|reflexivity].
Qed.
Lemma dels_ret ys : forall i0 i r, ERet i r ∈ dels k f i0 ys -> exists b, ys !! (i - i0)%nat = Some b /\ r = RInt (b, None) /\ (i0 <= i)%nat.
Proof.
  induction ys as [|b ys IH]; intros i0 i r H; [inversion H|]. cbn [dels] in H. apply elem_of_cons in H as [[=]|H]. apply elem_of_cons in H as [[= -> ->]|H].
  - exists b. rewrite Nat.sub_diag. auto.
  - destruct (IH _ _ _ H) as (c & H1 & -> & H2). exists c. replace (i - i0)%nat with (S (i - S i0))%nat by lia. split; [exact H1|]. split; [reflexivity|lia].
Qed.
Lemma dels_has ys : forall i0 i b, ys !! i = Some b -> ERet (i0 + i) (RInt (b, None)) ∈ dels k f i0 ys.
Proof.
  induction ys as [|g ys IH]; intros i0 [|i] b H; try discriminate; cbn [dels].
  - injection H as ->. rewrite Nat.add_0_r. apply elem_of_list_further, elem_of_list_here.
  - rewrite Nat.add_succ_r. apply elem_of_list_further, elem_of_list_further. apply (IH (S i0) i b H).
Qed.
Lemma dels_nodup ys : forall i0, NoDup (dels k f i0 ys).
Proof.
  induction ys as [|b ys IH]; intros i0; cbn [dels]; [constructor|]. constructor; [|constructor; [|apply IH]].
  - intros H. apply elem_of_cons in H as [[=]|H]. apply dels_inv in H as [H _]. lia.
  - intros H. apply dels_ret in H as (? & _ & _ & H). lia.
Qed.
Lemma dels_notick ys : forall i0 t, ETick t ∉ dels k f i0 ys.
Proof. induction ys as [|b ys IH]; intros i0 t H; [inversion H|]. cbn [dels] in H. apply elem_of_cons in H as [[=]|H]. apply elem_of_cons in H as [[=]|H]. exact (IH _ _ H). Qed.
Ltac nev := solve [intros ? ? HH; first [inversion HH; fail|apply elem_of_list_singleton in HH; congruence]].
Ltac dsol := try discriminate; try tauto; try nev; try (intros ? [?|?]; discriminate); try (intros []; fail); try (left; split; reflexivity); try (intros _; reflexivity).
Lemma dinv_step ys n0 p a c c' ev rest : - 2 ^ 63 <= n0 - Z.of_nat (length ys) -> n0 < 2 ^ 63 ->
  dinv (length ys) n0 p c -> cstep a c = Some (c', ev) -> p ++ ev ++ rest ≡ₚ dels k f 0 ys -> dinv (length ys) n0 (p ++ ev) c'.
Proof.
  intros Hlo Hhi (mp & len & pc & A1 & A2 & A3 & A4 & A5 & A6 & A7 & A8 & A9 & A10 & A11 & A12) E P.
  pose proof (wins_range pc (length ys)) as Hwr.
  destruct a as [i cl|i|i|t]; cbn [cstep] in E.
  - destruct (c_th c !! i) eqn:Ei; [discriminate|]. injection E as <- <-.
    assert (Hin : EInv i cl ∈ dels k f 0 ys) by (rewrite <- P, !elem_of_app, ?elem_of_list_singleton; auto). destruct (dels_inv _ _ _ _ Hin) as (Hi & ->).
    assert (Hi' : (i < length ys)%nat) by lia.
    assert (Hpc : pc i = D0).
    { assert (pc i = D0 \/ pc i <> D0) as [H|H] by (destruct (pc i); [left; reflexivity|right; discriminate..]); [exact H|exfalso]. destruct (A5 _ H) as [cl' H'].
      assert (Hin' : EInv i cl' ∈ dels k f 0 ys) by (rewrite <- P, !elem_of_app, ?elem_of_list_singleton; auto). destruct (dels_inv _ _ _ _ Hin') as (_ & ->).
      pose proof (dels_nodup ys 0) as N. rewrite <- P in N. apply list.NoDup_app in N as (_ & N & _). apply (N _ H'). apply elem_of_app. left. apply elem_of_list_here. }
    rewrite A1. apply (dinv_move (length ys) n0 p c i D1 mp len pc mp len [EInv i (CHDel k [f])] A2 A3 A4 A5 A6 A7 A8 A9 A10 A11 A12 Hi'); rewrite ?Hpc; dsol.
    + right. eexists. apply elem_of_list_here.
  - destruct (c_th c !! i) as [pr|] eqn:Ei; [|discriminate]. destruct pr as [|g]; [discriminate|].
    assert (Hi : (i < length ys)%nat) by (destruct (decide (i < length ys)%nat) as [H|H]; [exact H|rewrite A3 in Ei by lia; discriminate]).
    rewrite (A2 _ Hi) in Ei.
    assert (G : forall q w' p', dprog (pc i) = Some q -> go1 q (wa mp len) w' p' -> ev = [] /\ c' = Conf w' (<[i := p']> (c_th c))).
    { intros q w' p' Hq (g' & -> & Eg). rewrite Hq in Ei. injection Ei as <-. rewrite A1, Eg in E. injection E as <- <-. auto. }
    assert (M : forall (x : dst) (y : prog reply) (mp' : gmap gostr gval) (len' : Z), dprog x = Some y -> x <> D0 -> (forall b, pc i <> D8 b) -> pc i <> D0 ->
      (mp !! f = None -> mp' !! f = None) -> (mp' !! f = None -> mp !! f = None \/ passed x) -> (passed (pc i) -> passed x) -> (late x -> mp' !! f = None) ->
      (forall b, x = D7 b \/ x = D8 b -> b = 0 \/ b = 1) -> (won (pc i) = true -> won x = true) ->
      (len' = len /\ won x = won (pc i) \/ n0 - wins pc (length ys) - 1 <= len' < n0 /\ won (pc i) = false /\ won x = true) -> (forall n, x = D6 n -> n0 - wins pc (length ys) <= n <= n0) ->
      dinv (length ys) n0 (p ++ []) (Conf (wa mp' len') (<[i := y]> (c_th c)))).
    { intros x y mp' len' Hy C1 C2 C3 C4 C5 C6 C7 C8 C9 C10 C11. pose proof (dinv_move (length ys) n0 p c i x mp len pc mp' len' [] A2 A3 A4 A5 A6 A7 A8 A9 A10 A11 A12 Hi) as D. rewrite Hy in D.
      apply D; auto; try nev. }
    destruct (pc i) as [| | | | | |n|b|b] eqn:Hpc; try discriminate.
    + destruct (G _ _ _ eq_refl (sd_1 mp len)) as [-> ->]. apply (M D2 d2 mp len); dsol.
    + destruct (G _ _ _ eq_refl (sd_2 mp len)) as [-> ->]. apply (M D3 d3 mp len); dsol.
    + destruct (mp !! f) as [x|] eqn:Hf.
      * destruct (G _ _ _ eq_refl (sd_3s mp len x Hf)) as [-> ->]. apply (M D4 d4 mp len); rewrite ?Hf; dsol.
      * destruct (G _ _ _ eq_refl (sd_3n mp len Hf)) as [-> ->]. apply (M (D7 0) (d7 0) mp len); rewrite ?Hf; dsol. intros b [[= <-]|H]; [auto|discriminate].
    + destruct (G _ _ _ eq_refl (sd_4 mp len)) as [-> ->]. apply (M D5 d5 (delete f mp) len); rewrite ?lookup_delete; dsol; try (intros _; right; exact I).
    + destruct (G _ _ _ eq_refl (sd_5 mp len)) as [-> ->]. assert (Hf : mp !! f = None) by (apply (A7 _ Hi); rewrite Hpc; exact I).
      apply (M (D6 len) (d6 len) mp len); dsol. intros n [= <-]. exact A10.
    + destruct (G _ _ _ eq_refl (sd_6 mp len n)) as [-> ->]. assert (Hf : mp !! f = None) by (apply (A7 _ Hi); rewrite Hpc; exact I).
      pose proof (A12 _ _ Hi Hpc) as Hn.
      assert (Hw1 : wins pc (length ys) + 1 <= Z.of_nat (length ys)).
      { pose proof (wins_range (dmove pc i (D7 1)) (length ys)) as R. rewrite wins_in, Hpc in R by exact Hi. cbn in R. lia. }
      rewrite wrap_in by lia. apply (M (D7 1) (d7 1) mp (n - 1)); dsol.
      * intros b [[= <-]|H]; [auto|discriminate].
      * right. cbn. split; [lia|auto].
  - destruct (c_th c !! i) as [pr|] eqn:Ei; [|discriminate]. destruct pr as [r|]; [|discriminate]. injection E as <- <-.
    assert (Hi : (i < length ys)%nat) by (destruct (decide (i < length ys)%nat) as [H|H]; [exact H|rewrite A3 in Ei by lia; discriminate]).
    rewrite (A2 _ Hi) in Ei. destruct (pc i) as [| | | | | |n|b|b] eqn:Hpc; try discriminate. injection Ei as <-. rewrite A1.
    apply (dinv_move (length ys) n0 p c i (D8 b) mp len pc mp len [ERet i (RInt (b, None))] A2 A3 A4 A5 A6 A7 A8 A9 A10 A11 A12 Hi); rewrite ?Hpc; dsol.
    + left. discriminate.
    + intros j r H. apply elem_of_list_singleton in H. injection H as -> ->. eauto.
    + intros _. apply (A7 _ Hi). rewrite Hpc. exact I.
    + intros b' [H|[= <-]]; [discriminate|]. apply (A9 i). auto.
  - destruct (w_now (c_w c) <=? t); [|discriminate]. injection E as <- <-. exfalso. apply (dels_notick ys 0 t). rewrite <- P. rewrite !elem_of_app, elem_of_list_singleton. auto.
Qed.
Lemma dinv_exec ys n0 s : - 2 ^ 63 <= n0 - Z.of_nat (length ys) -> n0 < 2 ^ 63 -> forall p c c' evs,
  dinv (length ys) n0 p c -> cexec s c = Some (c', evs) -> p ++ evs ≡ₚ dels k f 0 ys -> dinv (length ys) n0 (p ++ evs) c'.
Proof.
  intros H2 H3. induction s as [|a s IH]; intros p c c' evs HI E P; cbn [cexec] in E; [injection E as <- <-; rewrite app_nil_r; exact HI|].
  destruct (cstep a c) as [[c1 e1]|] eqn:E1; [|discriminate]. destruct (cexec s c1) as [[c2 e2]|] eqn:E2; [|discriminate]. injection E as <- <-.
  rewrite app_assoc. apply (IH _ c1); [|exact E2|rewrite <- app_assoc; exact P]. exact (dinv_step ys n0 p a c c1 e1 e2 H2 H3 HI E1 P).
Qed.
End del.

(** When each of the goroutines 0, 1, ... has deleted the same field of a hash once and all have returned: any of them, but at least one, may have been told 1,
    and HLen says anything from the old count less one down to the old count less the number of those told 1; nothing else is possible.
    (The ideal is: exactly one is told 1, and HLen is one less.) *)
Theorem C202_exact_partial w0 k f l n0 fs0 ys n :
  ready w0 -> stored w0 k = Some (VHash l) -> deadline w0 k = None ->
  answer (w_now w0) (CHLen k) w0 = Some (RInt (n0, None)) -> answer (w_now w0) (CHKeys k) w0 = Some (RList (fs0, None)) -> f ∈ fs0 ->
  ys <> [] -> - 2 ^ 63 <= n0 - zlen ys -> n0 < 2 ^ 63 ->
  (exists s c evs, cexec s (start w0) = Some (c, evs) /\ evs ≡ₚ dels k f 0 ys /\ answer (w_now (c_w c)) (CHLen k) (c_w c) = Some (RInt (n, None))) <->
  (forall b, b ∈ ys -> b = 0 \/ b = 1) /\ 1 ∈ ys /\ n0 - Z.of_nat (count_occ Z.eq_dec ys 1) <= n < n0.
Proof.
  intros Hr Hs Hdl Hn0 Hf0 Hf Hne Hlo Hhi.
  assert (HI0 : inv k l (fun _ => True) w0) by (apply (start_inv w0 k [] l (fun _ => True)); auto).
  destruct (hkeys_now k l (w_now w0) w0 HI0) as (fs1 & o & Ho & Hk1 & _). rewrite Hf0 in Hk1. injection Hk1 as <-.
  destruct HI0 as (d & e & o' & Hd & He & Hk & Hek & Ho' & Huniq & Hnx & _). rewrite Ho in Ho'. injection Ho' as <-.
  assert (Hlen : forall t w mp len, w = wat w0 l mp len -> answer t (CHLen k) w = Some (RInt (len, None))).
  { intros t w mp len ->. unfold answer, run_call. cbn -[wat]. change (w_data (set_now (wat w0 l mp len) t)) with (w_data w0). unfold wat. cbn. rewrite Hd, Hk. cbn. rewrite He, Hek. cbn. rewrite lookup_insert. reflexivity. }
  assert (Hw : w0 = wat w0 l (h_map o) (h_len o)). { unfold wat. rewrite insert_id by (rewrite Ho; destruct o; reflexivity). destruct w0; reflexivity. }
  assert (h_len o = n0) as Hol. { rewrite (Hlen _ w0 _ _ Hw) in Hn0. injection Hn0 as <-. reflexivity. }
  assert (exists x, h_map o !! f = Some x) as [x Hx].
  { revert Hf0. destruct w0 as [wd we wh wn b m t0]. cbn in Hd, He, Ho. subst wd we. unfold answer, run_call. cbn [call_prog]. unfold pmap, m_hkeys, get_hash_entry. unfold set_now. cbn [w_data w_exp w_heap w_next w_writer w_readers w_now].
    rewrite !eval_bind, ev_c_get. unfold dead. rewrite Hek, Hk, ev_ret, eval_bind. rewrite (ev_h_range _ _ _ _ _ _ _ _ _ Ho). cbn. intros [= <-].
    apply elem_of_list_fmap in Hf as ([g x] & -> & Hg). exists x. apply elem_of_map_to_list in Hg. exact Hg. }
  unfold zlen in *. split.
  - intros (s & c & evs & E & P & Ha).
    assert (HT : dinv w0 k f l (length ys) n0 [] (start w0)).
    { exists (h_map o), (h_len o), (fun _ => D0). assert (Hz : forall N, wins (fun _ => D0) N = 0) by (induction N as [|N IH]; [reflexivity|cbn; rewrite IH; reflexivity]). rewrite Hz. cbn [start c_w c_th].
      split; [exact Hw|]. split; [|split; [|split; [|split; [|split; [|split; [|split; [|split; [|split; [|split]]]]]]]]].
      - intros. apply lookup_empty.
      - intros. apply lookup_empty.
      - intros i cl H. inversion H.
      - congruence.
      - intros i r H. inversion H.
      - intros i _ [].
      - rewrite Hx. discriminate.
      - intros i b [H|H]; discriminate.
      - lia.
      - lia.
      - discriminate. }
    pose proof (dinv_exec w0 k f l d e Hd He Hk Hek ys n0 s Hlo Hhi [] (start w0) c evs HT E P) as (mp & len & pc & A1 & _ & _ & _ & _ & A6 & A7 & A8 & A9 & A10 & A11 & _).
    rewrite (Hlen _ _ _ _ A1) in Ha. injection Ha as <-.
    assert (Hend : forall i b, ys !! i = Some b -> pc i = D8 b).
    { intros i b Hi. destruct (A6 i (RInt (b, None))) as (b' & Hb & [= <-]); [cbn [app]; rewrite P; exact (dels_has k f ys 0 i b Hi)|exact Hb]. }
    assert (H1 : 1 ∈ ys).
    { destruct ys as [|y ys]; [congruence|]. destruct A8 as (i & Hi & Hp); [apply (A7 0%nat); [cbn; lia|rewrite (Hend 0%nat y eq_refl); exact I]|].
      destruct (lookup_lt_is_Some_2 _ _ Hi) as [b Hb]. rewrite (Hend _ _ Hb) in Hp. cbn in Hp. subst b. apply elem_of_list_lookup. eauto. }
    split; [|split; [exact H1|]].
    + intros b Hb. apply elem_of_list_lookup in Hb as [i Hi]. apply (A9 i). right. exact (Hend _ _ Hi).
    + rewrite <- (wins_end pc ys Hend). split; [lia|]. apply A11. apply elem_of_list_lookup in H1 as [i Hi]. apply (wins_some _ _ i); [apply lookup_lt_Some in Hi; exact Hi|rewrite (Hend _ _ Hi); reflexivity].
  - intros (Hb & H1 & Hn). set (m := Z.to_nat (n0 - n - 1)). rewrite <- (told_len 1 ys 0) in Hn.
    pose proof (told_nodup 1 ys 0) as N1. rewrite <- (firstn_skipn m (told 1 0 ys)) in N1.
    assert (Hm : (m < length (told 1 0 ys))%nat) by lia.
    assert (Hl1 : length (firstn m (told 1 0 ys)) = m) by (rewrite firstn_length; lia).
    assert (length (told 1 0 ys) <= length ys)%nat by (rewrite told_len; clear; induction ys as [|y r IH]; [reflexivity|cbn; destruct (Z.eq_dec y 1); cbn; lia]).
    destruct (exec_dels w0 k f l d e Hd He Hk Hek (firstn m (told 1 0 ys)) (skipn m (told 1 0 ys)) (told 0 0 ys) (h_map o) (h_len o) x N1 (told_nodup 0 ys 0)) as (s & evs & E & P).
    + intros H'. apply (f_equal length) in H'. rewrite skipn_length in H'. cbn in H'. lia.
    + exact Hx.
    + rewrite Hl1. lia.
    + lia.
    + eexists s, _, evs. split; [|split].
      * unfold start. rewrite Hw at 1. exact E.
      * rewrite P, (dels_told k f ys 0 Hb), firstn_skipn. reflexivity.
      * cbn [c_w]. erewrite Hlen by reflexivity. rewrite Hl1. do 3 f_equal. lia.
Qed.
(** However many are told 1, the field is gone when all have returned. *)
Theorem C202_gone_partial w0 k f l n0 fs0 ys s c evs t1 :
  ready w0 -> stored w0 k = Some (VHash l) -> deadline w0 k = None ->
  answer (w_now w0) (CHLen k) w0 = Some (RInt (n0, None)) -> answer (w_now w0) (CHKeys k) w0 = Some (RList (fs0, None)) -> f ∈ fs0 ->
  ys <> [] -> - 2 ^ 63 <= n0 - zlen ys -> n0 < 2 ^ 63 ->
  cexec s (start w0) = Some (c, evs) -> evs ≡ₚ dels k f 0 ys -> answer t1 (CHGet k f) (c_w c) = Some (RStr ([], Some ErrKeyNil)).
Proof.
  intros Hr Hs Hdl Hn0 Hf0 Hf Hne Hlo Hhi.
  assert (HI0 : inv k l (fun _ => True) w0) by (apply (start_inv w0 k [] l (fun _ => True)); auto).
  destruct (hkeys_now k l (w_now w0) w0 HI0) as (fs1 & o & Ho & Hk1 & _). rewrite Hf0 in Hk1. injection Hk1 as <-.
  destruct HI0 as (d & e & o' & Hd & He & Hk & Hek & Ho' & Huniq & Hnx & _). rewrite Ho in Ho'. injection Ho' as <-.
  assert (Hlen : forall t w mp len, w = wat w0 l mp len -> answer t (CHLen k) w = Some (RInt (len, None))).
  { intros t w mp len ->. unfold answer, run_call. cbn -[wat]. change (w_data (set_now (wat w0 l mp len) t)) with (w_data w0). unfold wat. cbn. rewrite Hd, Hk. cbn. rewrite He, Hek. cbn. rewrite lookup_insert. reflexivity. }
  assert (Hw : w0 = wat w0 l (h_map o) (h_len o)). { unfold wat. rewrite insert_id by (rewrite Ho; destruct o; reflexivity). destruct w0; reflexivity. }
  assert (h_len o = n0) as Hol. { rewrite (Hlen _ w0 _ _ Hw) in Hn0. injection Hn0 as <-. reflexivity. }
  assert (exists x, h_map o !! f = Some x) as [x Hx].
  { revert Hf0. destruct w0 as [wd we wh wn b m t0]. cbn in Hd, He, Ho. subst wd we. unfold answer, run_call. cbn [call_prog]. unfold pmap, m_hkeys, get_hash_entry. unfold set_now. cbn [w_data w_exp w_heap w_next w_writer w_readers w_now].
    rewrite !eval_bind, ev_c_get. unfold dead. rewrite Hek, Hk, ev_ret, eval_bind. rewrite (ev_h_range _ _ _ _ _ _ _ _ _ Ho). cbn. intros [= <-].
    apply elem_of_list_fmap in Hf as ([g x] & -> & Hg). exists x. apply elem_of_map_to_list in Hg. exact Hg. }
  unfold zlen in *. intros E P.
  assert (HT : dinv w0 k f l (length ys) n0 [] (start w0)).
    { exists (h_map o), (h_len o), (fun _ => D0). assert (Hz : forall N, wins (fun _ => D0) N = 0) by (induction N as [|N IH]; [reflexivity|cbn; rewrite IH; reflexivity]). rewrite Hz. cbn [start c_w c_th].
      split; [exact Hw|]. split; [|split; [|split; [|split; [|split; [|split; [|split; [|split; [|split; [|split]]]]]]]]].
      - intros. apply lookup_empty.
      - intros. apply lookup_empty.
      - intros i cl H. inversion H.
      - congruence.
      - intros i r H. inversion H.
      - intros i _ [].
      - rewrite Hx. discriminate.
      - intros i b [H|H]; discriminate.
      - lia.
      - lia.
      - discriminate. }
    pose proof (dinv_exec w0 k f l d e Hd He Hk Hek ys n0 s Hlo Hhi [] (start w0) c evs HT E P) as (mp & len & pc & A1 & _ & _ & _ & _ & A6 & A7 & A8 & A9 & A10 & A11 & _).
    assert (Hend : forall i b, ys !! i = Some b -> pc i = D8 b).
    { intros i b Hi. destruct (A6 i (RInt (b, None))) as (b' & Hb & [= <-]); [cbn [app]; rewrite P; exact (dels_has k f ys 0 i b Hi)|exact Hb]. }
  assert (Hm : mp !! f = None).
  { destruct ys as [|y ys]; [congruence|]. apply (A7 0%nat); [cbn; lia|rewrite (Hend 0%nat y eq_refl); exact I]. }
  rewrite A1. unfold answer, run_call. cbn -[wat]. change (w_data (set_now (wat w0 l mp len) t1)) with (w_data w0). unfold wat. cbn. rewrite Hd, Hk. cbn. rewrite He, Hek. cbn. rewrite lookup_insert. cbn. rewrite Hm. reflexivity.
Qed.
(** The demo's hash h has the one field f: two goroutines are both told that they deleted it, and HLen is then -1. *)
Theorem C202_refuted : exists s c evs, cexec s (start demo) = Some (c, evs) /\ evs ≡ₚ dels (bs "h") (bs "f") 0 [1; 1] /\
  answer (w_now (c_w c)) (CHLen (bs "h")) (c_w c) = Some (RInt (-1, None)).
Proof.
  destruct C155_nonvacuous as ((l & Hl) & _). apply (C202_exact_partial demo (bs "h") (bs "f") l 1 [bs "f"] [1; 1] (-1)).
  - apply demo_ready.
  - exact Hl.
  - apply C155_nonvacuous.
  - vm_compute; reflexivity.
  - vm_compute; reflexivity.
  - apply elem_of_list_here.
  - discriminate.
  - vm_compute. discriminate.
  - reflexivity.
  - split; [|split; [apply elem_of_list_here|vm_compute; split; [discriminate|reflexivity]]].
    intros b Hb. apply elem_of_cons in Hb as [->|Hb]; [auto|]. apply elem_of_list_singleton in Hb as ->. auto.
Qed.
Example C202_nonvacuous : ready demo /\ (exists l, stored demo (bs "h") = Some (VHash l)) /\ deadline demo (bs "h") = None /\
  answer 8 (CHKeys (bs "h")) demo = Some (RList ([bs "f"], None)) /\
  events_of ([AInv 0 (CHDel (bs "h") [bs "f"]); AInv 1 (CHDel (bs "h") [bs "f"])] ++ runs 1 3 ++ runs 0 6 ++ [ARet 0] ++ runs 1 3 ++ [ARet 1]) demo =
    Some [EInv 0 (CHDel (bs "h") [bs "f"]); EInv 1 (CHDel (bs "h") [bs "f"]); ERet 0 (RInt (1, None)); ERet 1 (RInt (1, None))].
Proof. split; [apply demo_ready|]. split; [apply C155_nonvacuous|]. split; [apply C155_nonvacuous|]. split; vm_compute; reflexivity. Qed.
Print Assumptions C202_exact_partial.
Print Assumptions C202_gone_partial.
