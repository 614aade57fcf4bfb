(** * Props_Store: the cache against the reference store of StoreSpec.v *)
From stdpp Require Import list fin_maps.
From Verif Require Import Base GoFloat CacheModel CacheSpec StoreSpec.
From Verif Require Import CacheAbs CacheRefine CacheRefineH CacheMain CacheLib Props_String Props_String2 Props_Db.

(** ** The histories on which the two agree

    [fits c t st q]: the call [c] at time [t] avoids the known defects (C01, C06-C08, C10, C11, C16, C19, C20, C22, C26, C27, C29,
    C30, C31, C35, C38, C39, C42-C44, C119) in a store [st]; [q] lists the keys of which HExists has found a field. *)
Definition int64 (n : Z) : Prop := - 2 ^ 63 <= n < 2 ^ 63.
(** not a number literal *)
Definition wordy (v : gostr) : Prop := atoi v = None /\ parse_float v = None.
Definition counts (d : Z) (x : item) : Prop :=
  match x with
  | None => int64 d
  | Some (Txt s, _) => forall n, atoi s = Some n -> int64 (n + d)
  | _ => True
  end.
Definition fits1 (c : call) (t : Z) (x : item) (spoiled : Prop) : Prop :=
  let fresh := expired t x = false in
  match c with
  | CSet _ v => plain v /\ dl_of x = None
  | CSetNX _ v => plain v /\ fresh
  | CSetEX _ v n => plain v /\ 0 < n /\ 1000000000 * n < 2 ^ 63
  | CPSetEX _ v n => plain v /\ 0 < n /\ 1000000 * n < 2 ^ 63
  | CGetSet _ v => plain v /\ match live t x with Some (Hsh _, _) => False | y => dl_of y = None end
  | CAppend _ v => match live t x with Some (Txt s, _) => plain (s ++ v) | _ => plain v end
  | CSetRange _ pos r =>
    if pos <? 0 then fresh else
    match live t x with
    | None => pos <= 2 ^ 48 /\ plain (splice [] (Z.to_nat pos) r)
    | Some (Txt s, _) => plain (splice s (Z.to_nat pos) r)
    | _ => True
    end
  | CIncr _ => fresh /\ counts 1 x
  | CIncrBy _ d => fresh /\ counts d x
  | CDecr _ => fresh /\ counts (-1) x
  | CDecrBy _ d => fresh /\ counts (- d) x
  | CIncrByFloat _ f =>
    fresh /\ match x with
             | None => try_int64 (format_float f) = VFloat f
             | Some (Txt s, _) => atoi s = None /\ forall y, parse_float s = Some y -> try_int64 (format_float (f64_add y f)) = VFloat (f64_add y f)
             | _ => True
             end
  | CType _ => match live t x with Some (Hsh _, _) => False | _ => True end
  | CHSet _ _ v => plain v
  | CHSetNX _ f v => wordy v
  | CHDel _ fs => match live t x with Some (Hsh m, _) => drop_all fs m <> ∅ | _ => True end
  | CHLen _ => match live t x with Some (Hsh m, _) => size_of m < 2 ^ 63 /\ ~ spoiled | _ => True end
  | CHIncrBy _ f d =>
    int64 d /\ match live t x with
               | Some (Hsh m, _) => match m !! f with Some s => s <> [] /\ forall n, atoi s = Some n -> n = 0 | None => True end
               | _ => True
               end
  | CHIncrByFloat _ f d =>
    plain (format_float d) /\ match live t x with
               | Some (Hsh m, _) => match m !! f with Some s => s <> [] /\ wordy s | None => True end
               | _ => True
               end
  | CHMSet _ fv => fv <> [] /\ Forall (fun p => plain (snd p)) fv
  | CHKeys _ => live t x <> None
  | CHVals _ => match live t x with None => False | Some (Hsh m, _) => forall f s, m !! f = Some s -> wordy s | _ => True end
  | CHGetAll _ => match live t x with Some (Txt _, _) => True | _ => False end
  | CGet _ | CStrLen _ | CGetRange _ _ _ | CDel _ | CHExists _ _ | CHStrLen _ _ | CHMGet _ _ | CHGet _ _ => True
  | _ => False
  end.
Definition fits (c : call) (t : Z) (st : store) (q : list gostr) : Prop :=
  match c with
  | CMSet kv => forall k v, (k, v) ∈ kv -> plain v /\ dl_of (st k) = None
  | CMSetNX kv => NoDup (map fst kv) /\ (forall k v, (k, v) ∈ kv -> plain v /\ expired t (st k) = false) /\
                  ((forall k v, (k, v) ∈ kv -> st k = None) \/ (forall k v, (k, v) ∈ kv -> st k <> None))
  | CMGet _ | CFlush => True
  | CExists ks => forall k, k ∈ ks -> expired t (st k) = false
  | CCron => if zero_time <? t (* the year 1 *) then forall k, live t (st k) = None else forall k, dl_of (st k) = None
  | c => match keys_of c with Some [k] => fits1 c t (st k) (k ∈ q) | _ => False end
  end.
Definition spoil (c : call) (q : list gostr) : list gostr := match c with CHExists k _ => k :: q | _ => q end.
Fixpoint all_fit (h : list (Z * call)) (st : store) (q : list gostr) : Prop :=
  match h with
  | [] => True
  | (t, c) :: h => fits c t st q /\ all_fit h (fst (ref_call c t st)) (spoil c q)
  end.
Definition no_keys : store := fun _ => None.

(** ** The relation *)
Definition tval (s : gostr) (y : gval) : Prop := (plain s /\ y = try_int64 s) \/ (exists n, int64 n /\ y = VInt64 n /\ s = itoa n).
Definition rel1 (spoiled : Prop) (x : item) (v : kview) : Prop :=
  match x with
  | None => v = (None, None)
  | Some (Txt s, e) => exists y, v = (Some (CV y), e) /\ tval s y
  | Some (Hsh m, e) => exists o, v = (Some (CH o), e) /\ h_map o = try_int64 <$> m /\ (forall f s, m !! f = Some s -> plain s) /\
                                 (~ spoiled -> h_len o = wrap64 (size_of m))
  end.
Definition rel (q : list gostr) (st : store) (V : views) : Prop := forall k, rel1 (k ∈ q) (st k) (V k).

Lemma int64_iff n : int64 n <-> is_int64 n = true.
Proof. unfold int64. rewrite is_int64_iff. unfold min_int64, max_int64. lia. Qed.
Lemma plain_itoa n : int64 n -> plain (itoa n).
Proof. intros H. apply int64_iff in H. unfold plain, text. rewrite atoi_itoa by auto. reflexivity. Qed.
Lemma try_itoa n : int64 n -> try_int64 (itoa n) = VInt n.
Proof. intros H. apply int64_iff in H. unfold try_int64. rewrite atoi_itoa by auto. reflexivity. Qed.
Lemma tval_fmt s y : tval s y -> fmt_string y = Some s.
Proof. intros [[Hp ->]|(n & _ & -> & ->)]; [|reflexivity]. rewrite fmt_try. f_equal. exact Hp. Qed.
Lemma tval_put s : plain s -> tval s (try_int64 s). Proof. left. auto. Qed.
Lemma rel1_weaken (P Q : Prop) x v : (P -> Q) -> rel1 P x v -> rel1 Q x v.
Proof. intros H. destruct x as [[[s|m] e]|]; cbn; auto. intros (o & H1 & H2 & H3 & H4). exists o. auto 10. Qed.
Lemma rel1_purge P t x v : rel1 P x v -> rel1 P (live t x) (purge t v).
Proof.
  unfold live, expired. destruct x as [[[s|m] [dl|]]|]; cbn [rel1].
  - intros (y & -> & Hy). cbn. destruct (dl <? t); cbn; eauto.
  - intros (y & -> & Hy). cbn. eauto.
  - intros (o & -> & Ho). cbn. destruct (dl <? t); cbn; eauto.
  - intros (o & -> & Ho). cbn. eauto.
  - intros ->. reflexivity.
Qed.
Lemma rel1_fresh P t x v : rel1 P x v -> expired t x = false -> live t x = x /\ purge t v = v.
Proof.
  unfold live. intros H E. rewrite E. split; [reflexivity|]. destruct x as [[[s|m] [dl|]]|]; cbn in *.
  - destruct H as (y & -> & Hy). cbn. rewrite E. reflexivity.
  - destruct H as (y & -> & Hy). reflexivity.
  - destruct H as (o & -> & Ho). cbn. rewrite E. reflexivity.
  - destruct H as (o & -> & Ho). reflexivity.
  - subst. reflexivity.
Qed.
Lemma rel1_fst_none P x v : rel1 P x v -> (x = None <-> fst v = None).
Proof. destruct x as [[[s|m] e]|]; cbn; [intros (? & -> & _)|intros (? & -> & _)|intros ->]; cbn; split; auto; discriminate. Qed.

Definition hrel (P : Prop) (m : gmap gostr gostr) (o : hobj) : Prop :=
  h_map o = try_int64 <$> m /\ (forall f s, m !! f = Some s -> plain s) /\ (~ P -> h_len o = wrap64 (size_of m)).
Lemma hrel_get P m o f : hrel P m o -> o_get o f = m !! f.
Proof.
  intros (H & Hp & _). unfold o_get. rewrite H, lookup_fmap. destruct (m !! f) as [s|] eqn:E; [|reflexivity].
  cbn. rewrite fmt_try. f_equal. apply (Hp f), E.
Qed.
Lemma hrel_set P m o f v : hrel P m o -> plain v -> hrel P (<[f := v]> m) (o_set o f v).
Proof.
  intros (H & Hp & Hl) Hv. split; [|split].
  - cbn. rewrite fmap_insert, H. reflexivity.
  - intros g s. rewrite lookup_insert_Some. intros [[_ <-]|[_ E]]; eauto.
  - intros Hq. cbn. rewrite (Hl Hq). rewrite wrap64_add_l. unfold o_isnew, size_of. rewrite H, lookup_fmap. f_equal.
    destruct (m !! f) as [s|] eqn:E; cbn.
    + rewrite map_size_insert_Some by eauto. lia.
    + rewrite map_size_insert_None by auto. lia.
Qed.
Lemma hrel_empty P : hrel P ∅ empty_hobj.
Proof. split; [symmetry; apply fmap_empty|]. split; [|reflexivity]. intros f s. rewrite lookup_empty. discriminate. Qed.
Lemma size_insert (m : gmap gostr gostr) f v : size_of (<[f := v]> m) = size_of m + match m !! f with None => 1 | Some _ => 0 end.
Proof.
  unfold size_of. destruct (m !! f) eqn:E; [rewrite map_size_insert_Some by eauto|rewrite map_size_insert_None by auto]; lia.
Qed.
Lemma size_delete (m : gmap gostr gostr) f : size_of (delete f m) = size_of m - match m !! f with None => 0 | Some _ => 1 end.
Proof.
  unfold size_of. destruct (m !! f) as [s|] eqn:E; [|rewrite delete_notin by auto; lia].
  rewrite map_size_delete_Some by eauto. assert (size m <> 0%nat); [|lia]. intros H. apply map_size_empty_inv in H. subst. rewrite lookup_empty in E. discriminate.
Qed.
Lemma hrel_isnew P m o f : hrel P m o -> o_isnew o f = match m !! f with None => 1 | Some _ => 0 end.
Proof. intros (H & _). unfold o_isnew. rewrite H, lookup_fmap. destruct (m !! f); reflexivity. Qed.
Lemma hrel_mset P fv : forall m o n, hrel P m o -> Forall (fun p => plain (snd p)) fv ->
  hrel P (put_all fv m) (fst (o_mset o fv n)) /\ snd (o_mset o fv n) = n + (size_of (put_all fv m) - size_of m).
Proof.
  induction fv as [|[f v] fv IH]; intros m o n Ho Hf; [cbn; split; [exact Ho|lia]|].
  inversion_clear Hf as [|? ? Hv Hf']. cbn [o_mset put_all foldl fst snd] in *.
  destruct (IH (<[f := v]> m) (o_set o f v) (n + o_isnew o f) (hrel_set P m o f v Ho Hv) Hf') as [H1 H2]. split; [exact H1|].
  rewrite H2. fold (put_all fv (<[f := v]> m)). rewrite (hrel_isnew P m o f Ho), size_insert. lia.
Qed.
Lemma hrel_del fs : forall m o n, h_map o = try_int64 <$> m -> (forall f s, m !! f = Some s -> plain s) ->
  h_map (fst (o_del o fs n)) = try_int64 <$> drop_all fs m /\ (forall f s, drop_all fs m !! f = Some s -> plain s) /\
  h_len (fst (o_del o fs n)) = h_len o /\ snd (o_del o fs n) = n + (size_of m - size_of (drop_all fs m)).
Proof.
  induction fs as [|f fs IH]; intros m o n Ho Hp; [cbn; split; [exact Ho|]; split; [exact Hp|]; split; [reflexivity|lia]|].
  cbn [o_del drop_all foldl]. fold (drop_all fs (delete f m)).
  assert (Hg : o_get o f = m !! f). { apply (hrel_get True). split; [exact Ho|]. split; [exact Hp|]. tauto. }
  rewrite Hg. destruct (m !! f) as [s|] eqn:E.
  - destruct (IH (delete f m) (HObj (delete f (h_map o)) (h_len o)) (n + 1)) as (H1 & H2 & H3 & H4).
    + cbn. rewrite Ho, fmap_delete. reflexivity.
    + intros g s'. rewrite lookup_delete_Some. intros [_ ?]. eauto.
    + split; [exact H1|]. split; [exact H2|]. split; [exact H3|]. rewrite H4, size_delete, E. lia.
  - rewrite delete_notin by auto. apply IH; auto.
Qed.
Lemma tval_atoi s y n : tval s y -> atoi s = Some n -> (y = VInt n \/ y = VInt64 n) /\ int64 n /\ s = itoa n.
Proof.
  intros [[Hp ->]|(m & Hm & -> & ->)] E.
  - unfold try_int64. rewrite E. split; [auto|]. unfold plain, text in Hp. rewrite E in Hp. split; [|auto].
    apply int64_iff. apply atoi_int64 in E. exact E.
  - rewrite atoi_itoa in E by (apply int64_iff; auto). injection E as ->. auto.
Qed.
Lemma tval_noint s y d : tval s y -> atoi s = None -> incr_val y d = None /\ y = try_int64 s.
Proof.
  intros [[Hp ->]|(m & Hm & -> & ->)] E.
  - split; [|reflexivity]. unfold try_int64. rewrite E. destruct (parse_float s); reflexivity.
  - rewrite atoi_itoa in E by (apply int64_iff; auto). discriminate.
Qed.
Lemma rel1_incr P x v d : rel1 P x v -> counts d x ->
  rel1 P (fst (count_by d x)) (fst (a_incr d v)) /\ snd (count_by d x) = snd (a_incr d v).
Proof.
  intros H Hc. destruct x as [[[s|m] e]|]; cbn [rel1] in H.
  - destruct H as (y & -> & Hy). cbn in Hc |- *. destruct (atoi s) as [n|] eqn:E.
    + destruct (tval_atoi s y n Hy E) as (Hv & Hn & ->). specialize (Hc n eq_refl).
      assert (Hw : wrap64 (n + d) = n + d) by (apply wrap64_id, int64_iff, Hc).
      destruct Hv as [-> | ->]; cbn; rewrite Hw; (split; [|reflexivity]); eexists; (split; [reflexivity|]).
      * left. split; [apply plain_itoa, Hc|]. symmetry. apply try_itoa, Hc.
      * right. eauto.
    + destruct (tval_noint s y d Hy E) as [-> _]. cbn. eauto.
  - destruct H as (o & -> & Ho). cbn. eauto.
  - subst v. cbn. split; [|reflexivity]. eexists. split; [reflexivity|]. right. exists d. auto.
Qed.
Lemma incr_wrap P x v d : rel1 P x v -> counts d x -> a_incr (wrap64 d) v = a_incr d v.
Proof.
  intros H Hc. destruct x as [[[s|m] e]|]; cbn [rel1] in H.
  - destruct H as (y & -> & Hy). cbn. destruct (atoi s) as [n|] eqn:E.
    + destruct (tval_atoi s y n Hy E) as ([-> | ->] & _); cbn; rewrite wrap64_add_r; reflexivity.
    + destruct (tval_noint s y d Hy E) as [-> _], (tval_noint s y (wrap64 d) Hy E) as [-> _]. reflexivity.
  - destruct H as (o & -> & Ho). reflexivity.
  - subst v. cbn in Hc |- *. rewrite wrap64_id by (apply int64_iff, Hc). reflexivity.
Qed.
Lemma splice_loop o n r : setrange_loop (o ++ repeat x00 (n - length o)%nat) n r = splice o n r.
Proof.
  rewrite setrange_loop_spec by (rewrite app_length, repeat_length; lia). unfold splice.
  destruct (Nat.le_gt_cases n (length o)) as [Hl|Hl].
  - replace (n - length o)%nat with 0%nat by lia. cbn [repeat]. rewrite app_nil_r. reflexivity.
  - rewrite firstn_all2 by (rewrite app_length, repeat_length; lia). rewrite (firstn_all2 o) by lia.
    rewrite !drop_ge by (rewrite ?app_length, ?repeat_length; lia). rewrite <- app_assoc. reflexivity.
Qed.
Lemma splice_nil n r : splice [] n r = repeat x00 n ++ r.
Proof. unfold splice. rewrite take_nil, drop_nil, app_nil_r. cbn [length app]. rewrite Nat.sub_0_r. reflexivity. Qed.
Definition spoils (c : call) (P : Prop) : Prop := match c with CHExists _ _ => True | _ => P end.
Definition good1 (c : call) (t : Z) (x : item) (v : kview) (P : Prop) : Prop :=
  exists v' r, abs1 c t v = Some (v', r) /\ rel1 (spoils c P) (fst (ref1 c t (live t x))) v' /\ same_reply r (snd (ref1 c t (live t x))).
Lemma same_refl r : same_reply r r.
Proof. destruct r; cbn; try reflexivity. destruct r. auto. Qed.
(** a call that reads or changes the hash *)
Lemma hread_ok {A} (P : Prop) (z : A) (ab : gret A) (g : hobj -> hobj * gret A) (g' : gmap gostr gostr -> gret A) x v : rel1 P x v ->
  (forall m e o, x = Some (Hsh m, e) -> hrel P m o -> hrel P m (fst (g o)) /\ snd (g o) = g' m) ->
  rel1 P x (fst (a_hread z ab g v)) /\ snd (a_hread z ab g v) = on_hash z ab g' x.
Proof.
  intros H Hg. destruct x as [[[s|m] e]|]; cbn [rel1] in H.
  - destruct H as (y & -> & Hy). cbn. eauto.
  - destruct H as (o & -> & Ho). cbn. specialize (Hg m e o eq_refl Ho). destruct (g o) as [o' r]. cbn in *. destruct Hg as [Hg ->]. split; [|reflexivity].
    exists o'. split; [reflexivity|]. exact Hg.
  - subst v. cbn. auto.
Qed.
Lemma hwrite_ok {A} (P : Prop) (z : A) (g : hobj -> hobj * gret A) (g' : gmap gostr gostr -> gmap gostr gostr * gret A) x v : rel1 P x v ->
  (forall m o, (x = None /\ m = ∅ \/ exists e, x = Some (Hsh m, e)) -> hrel P m o -> hrel P (fst (g' m)) (fst (g o)) /\ snd (g o) = snd (g' m)) ->
  rel1 P (fst (to_hash z g' x)) (fst (a_hwrite z g v)) /\ snd (a_hwrite z g v) = snd (to_hash z g' x).
Proof.
  intros H Hg. destruct x as [[[s|m] e]|]; cbn [rel1] in H.
  - destruct H as (y & -> & Hy). cbn. eauto.
  - destruct H as (o & -> & Ho). cbn. specialize (Hg m o ltac:(eauto) Ho). destruct (g o) as [o' r]. cbn in *. destruct Hg as [Hg ->]. split; [|reflexivity].
    exists o'. split; [reflexivity|]. exact Hg.
  - subst v. cbn. specialize (Hg ∅ empty_hobj ltac:(auto) (hrel_empty P)). destruct (g empty_hobj) as [o' r]. cbn in *. destruct Hg as [Hg ->]. split; [|reflexivity].
    exists o'. split; [reflexivity|]. exact Hg.
Qed.
Lemma wr_good {A} (inj : A -> reply) c t x v P (p : kview * A) (q : item * A) :
  abs1 c t v = wr inj p -> ref1 c t (live t x) = (fst q, inj (snd q)) -> rel1 (spoils c P) (fst q) (fst p) /\ snd p = snd q -> good1 c t x v P.
Proof. intros E1 E2 [H1 H2]. exists (fst p), (inj (snd p)). split; [exact E1|]. rewrite E2. cbn. rewrite H2. split; [exact H1|apply same_refl]. Qed.
Lemma wr_read {A} (inj : A -> reply) c t x v P (p : kview * A) (r : A) :
  abs1 c t v = wr inj p -> ref1 c t (live t x) = (live t x, inj r) -> rel1 (spoils c P) (live t x) (fst p) /\ snd p = r -> good1 c t x v P.
Proof. intros E1 E2 H. exact (wr_good inj c t x v P p (live t x, r) E1 E2 H). Qed.

Lemma step1 c k t x v P : single c = Some k -> rel1 P x v -> fits1 c t x P -> good1 c t x v P.
Proof.
  intros Hk H Hf. pose proof (rel1_purge P t x v H) as Hp.
  destruct c; try discriminate Hk; try exact (False_ind _ Hf); clear Hk.
  - (* Set *) destruct Hf as [Hv Hd]. exists (put v0 v), (RStr (bs "OK", None)). split; [reflexivity|]. split; [|reflexivity]. cbn. unfold put.
    exists (try_int64 v0). split; [|apply tval_put, Hv]. f_equal. destruct x as [[[s|m] e]|]; cbn in H, Hd; [destruct H as (? & -> & _)|destruct H as (? & -> & _)|subst v]; auto.
  - (* SetNX *) destruct Hf as [Hv Hd]. destruct (rel1_fresh P t x v H Hd) as [El _]. unfold good1. rewrite El. cbn [abs1 ref1].
    pose proof (rel1_fst_none P x v H) as Hn. destruct (fst v) as [c0|] eqn:Ev.
    + exists v, (RInt (0, None)). split; [reflexivity|]. destruct x as [y|]; [|destruct Hn as [Hn _]; discriminate (Hn eq_refl)]. cbn [present fst snd]. split; [exact H|reflexivity].
    + destruct Hn as [_ Hn]. rewrite (Hn eq_refl) in *. cbn in H. subst v. eexists _, _. split; [reflexivity|]. split; [|reflexivity]. cbn. eexists. split; [reflexivity|]. apply tval_put, Hv.
  - (* SetEX *) destruct Hf as (Hv & Hn & Hb). eexists _, _. split; [reflexivity|]. split; [|reflexivity]. cbn [ref1 fst]. exists (try_int64 v0). split; [|apply tval_put, Hv].
    f_equal. unfold dl_after, second. rewrite wrap64_id by (apply int64_iff; unfold int64; lia). destruct (Z.leb_spec (1000000000 * n) 0); [lia|reflexivity].
  - (* PSetEX *) destruct Hf as (Hv & Hn & Hb). eexists _, _. split; [reflexivity|]. split; [|reflexivity]. cbn [ref1 fst]. exists (try_int64 v0). split; [|apply tval_put, Hv].
    f_equal. unfold dl_after, millisecond. rewrite wrap64_id by (apply int64_iff; unfold int64; lia). destruct (Z.leb_spec (1000000 * n) 0); [lia|reflexivity].
  - (* Get *) eexists _, _. split; [reflexivity|]. cbn [ref1 fst snd]. split; [exact Hp|]. destruct (live t x) as [[[s|m] e]|]; cbn in Hp.
    + destruct Hp as (y & -> & Hy). cbn. unfold fmt_cret. cbn. rewrite (tval_fmt s y Hy). reflexivity.
    + destruct Hp as (o & -> & _). reflexivity.
    + rewrite Hp. reflexivity.
  - (* GetSet *) destruct Hf as [Hv Hd]. eexists _, _. split; [reflexivity|]. cbn [ref1 fst snd]. destruct (live t x) as [[[s|m] e]|]; cbn in Hp, Hd; [|destruct Hd|].
    + destruct Hp as (y & -> & Hy). subst e. split; [|cbn; unfold fmt_cret; cbn; rewrite (tval_fmt s y Hy); reflexivity].
      cbn. eexists. split; [reflexivity|]. apply tval_put, Hv.
    + rewrite Hp. split; [|reflexivity]. cbn. eexists. split; [reflexivity|]. apply tval_put, Hv.
  - (* StrLen *) eexists _, _. split; [reflexivity|]. cbn [ref1 fst snd]. split; [exact Hp|]. destruct (live t x) as [[[s|m] e]|]; cbn in Hp.
    + destruct Hp as (y & -> & Hy). cbn. rewrite (tval_fmt s y Hy). reflexivity.
    + destruct Hp as (o & -> & _). reflexivity.
    + rewrite Hp. reflexivity.
  - (* Append *) unfold good1. cbn [abs1 ref1 fits1] in *. destruct (live t x) as [[[s|m] e]|]; cbn in Hp, Hf.
    + destruct Hp as (y & -> & Hy). cbn [fst snd]. cbn [fmt_cell]. rewrite (tval_fmt s y Hy). eexists _, _. split; [reflexivity|]. split; [|reflexivity].
      cbn. eexists. split; [reflexivity|]. apply tval_put, Hf.
    + destruct Hp as (o & -> & Ho). eexists _, _. split; [reflexivity|]. split; [|reflexivity]. cbn. eauto.
    + rewrite Hp. eexists _, _. split; [reflexivity|]. split; [|reflexivity]. cbn. eexists. split; [reflexivity|]. apply tval_put, Hf.
  - (* SetRange *) unfold good1. cbn [abs1 ref1 fits1] in *. destruct (pos <? 0) eqn:E0.
    + destruct (rel1_fresh P t x v H Hf) as [-> _]. eexists _, _. split; [reflexivity|]. split; [exact H|reflexivity].
    + destruct (live t x) as [[[s|m] e]|]; cbn in Hp, Hf.
      * destruct Hp as (y & -> & Hy). cbn [fst snd]. cbn [fmt_cell]. rewrite (tval_fmt s y Hy), splice_loop. eexists _, _. split; [reflexivity|]. split; [|reflexivity].
        cbn. eexists. split; [reflexivity|]. apply tval_put, Hf.
      * destruct Hp as (o & -> & Ho). eexists _, _. split; [reflexivity|]. split; [|reflexivity]. cbn. eauto.
      * destruct Hf as [Hl Hf]. rewrite Hp. cbn [fst snd]. unfold max_alloc. destruct (Z.gtb_spec pos (2 ^ 48)); [lia|]. rewrite splice_nil in *. eexists _, _. split; [reflexivity|]. split; [|reflexivity].
        cbn. eexists. split; [reflexivity|]. apply tval_put, Hf.
  - (* GetRange *) eexists _, _. split; [reflexivity|]. cbn [ref1 fst snd]. split; [exact Hp|]. destruct (live t x) as [[[s|m] e]|]; cbn in Hp.
    + destruct Hp as (y & -> & Hy). cbn [fst snd on_text]. cbn [fmt_cell]. rewrite (tval_fmt s y Hy). rewrite getrange_loop_spec by (unfold zlen in *; lia). reflexivity.
    + destruct Hp as (o & -> & _). reflexivity.
    + rewrite Hp. reflexivity.
  - (* Incr *) destruct Hf as [Hd Hc]. destruct (rel1_fresh P t x v H Hd) as [El _]. eapply (wr_good RInt); [reflexivity|rewrite El; reflexivity|]. destruct (rel1_incr P x v _ H Hc). auto.
  - destruct Hf as [Hd Hc]. destruct (rel1_fresh P t x v H Hd) as [El _]. eapply (wr_good RInt); [reflexivity|rewrite El; reflexivity|]. destruct (rel1_incr P x v _ H Hc). auto.
  - (* IncrByFloat *) destruct Hf as [Hd Hc]. destruct (rel1_fresh P t x v H Hd) as [El _]. unfold good1. rewrite El. cbn [abs1 ref1]. destruct x as [[[s|m] e]|]; cbn in H, Hc.
    + destruct H as (y & -> & Hy). destruct Hc as [Ha Hc]. destruct (tval_noint s y 0 Hy Ha) as [_ ->]. unfold try_int64. rewrite Ha. destruct (parse_float s) as [z|] eqn:Ez; cbn [fst snd].
      * eexists _, _. split; [reflexivity|]. split; [|reflexivity]. cbn. eexists. split; [reflexivity|]. specialize (Hc z eq_refl). left. split; [|auto].
        unfold plain. pose proof (fmt_try (format_float (f64_add z f))) as Hq. rewrite Hc in Hq. cbn in Hq. injection Hq as Hq. auto.
      * eexists _, _. split; [reflexivity|]. split; [|reflexivity]. cbn. eexists. split; [reflexivity|]. destruct Hy as [[Hy _]|(n & _ & Hy & ->)]; [|exfalso].
        -- left. split; [exact Hy|]. unfold try_int64. rewrite Ha, Ez. reflexivity.
        -- unfold try_int64 in Hy. rewrite Ha, Ez in Hy. discriminate.
    + destruct H as (o & -> & Ho). eexists _, _. split; [reflexivity|]. split; [|reflexivity]. cbn. eauto.
    + subst v. eexists _, _. split; [reflexivity|]. split; [|reflexivity]. cbn. eexists. split; [reflexivity|]. left. split; [|auto].
      unfold plain. pose proof (fmt_try (format_float f)) as Hq. rewrite Hc in Hq. cbn in Hq. injection Hq as Hq. auto.
  - destruct Hf as [Hd Hc]. destruct (rel1_fresh P t x v H Hd) as [El _]. eapply (wr_good RInt); [reflexivity|rewrite El; reflexivity|]. destruct (rel1_incr P x v _ H Hc). auto.
  - (* DecrBy *) destruct Hf as [Hd Hc]. destruct (rel1_fresh P t x v H Hd) as [El _]. eapply (wr_good RInt); [reflexivity|rewrite El; reflexivity|]. 
    rewrite (incr_wrap P x v _ H Hc). destruct (rel1_incr P x v _ H Hc). auto.
  - (* Del *) eexists _, _. split; [reflexivity|]. cbn [ref1 fst snd]. split; [reflexivity|]. destruct (live t x) as [[[s|m] e]|]; cbn in Hp; [destruct Hp as (? & -> & _)|destruct Hp as (? & -> & _)|rewrite Hp]; reflexivity.
  - (* Type *) eexists _, _. split; [reflexivity|]. cbn [ref1 fst snd fits1] in *. split; [exact Hp|]. destruct (live t x) as [[[s|m] e]|]; cbn in Hp; [destruct Hp as (? & -> & _)|destruct Hf|rewrite Hp]; reflexivity.
  - (* HSet *) eapply (wr_good RInt); [reflexivity|reflexivity|]. apply hwrite_ok; [exact Hp|]. intros m o _ Ho. cbn [fst snd]. split; [apply hrel_set; auto|]. rewrite (hrel_isnew P m o f Ho). reflexivity.
  - (* HSetNX *) destruct Hf as [Hf1 Hf2]. eapply (wr_good RInt); [reflexivity|reflexivity|]. apply hwrite_ok; [exact Hp|]. intros m o _ Ho. cbn [fst snd].
    assert (Ht : try_int64 v0 = VStr v0) by (unfold try_int64; rewrite Hf1, Hf2; reflexivity).
    assert (Hpl : plain v0) by (unfold plain, text; rewrite Hf1, Hf2; reflexivity).
    pose proof (hrel_set P m o f v0 Ho Hpl) as Hs. unfold o_set, o_isnew in Hs. rewrite Ht in Hs. destruct Ho as (Hm & Ho). rewrite Hm, lookup_fmap in *. destruct (m !! f); cbn in *; split; auto. split; auto.
  - (* HExists *) eapply (wr_read RInt); [reflexivity|reflexivity|]. cbn [spoils]. apply hread_ok; [apply (rel1_weaken P); auto|]. intros m e o _ Ho. cbn [fst snd].
    rewrite (hrel_get True m o f Ho). split; [|destruct (m !! f); reflexivity]. destruct Ho as (H1 & H2 & _). split; [exact H1|]. split; [exact H2|]. intros Hn. destruct Hn. exact I.
  - (* HDel *) unfold good1. cbn [abs1 ref1 fits1 spoils] in *. destruct (live t x) as [[[s|m] e]|]; cbn in Hp, Hf.
    + destruct Hp as (y & -> & Hy). eexists _, _. split; [reflexivity|]. split; [|reflexivity]. cbn. eauto.
    + destruct Hp as (o & -> & H1 & H2 & H3). cbn [a_hread fst snd]. destruct (hrel_del fs m o 0 H1 H2) as (G1 & G2 & G3 & G4). unfold wr, a_hread. cbn [fst snd].
      destruct (o_del o fs 0) as [o' n]. cbn [fst snd] in *. rewrite Z.add_0_l in G4. eexists _, _. split; [reflexivity|]. split; [|rewrite G4; reflexivity]. cbn [fst].
      rewrite decide_False by exact Hf. cbn [rel1]. eexists. split; [reflexivity|]. destruct (n =? 0) eqn:En; cbn [h_map h_len]; (split; [exact G1|]; split; [exact G2|]); intros Hn; rewrite G3, (H3 Hn).
      * apply Z.eqb_eq in En. f_equal. lia.
      * rewrite G4. unfold Z.sub. rewrite wrap64_add_l. f_equal. lia.
    + rewrite Hp. eexists _, _. split; [reflexivity|]. split; reflexivity.
  - (* HLen *) eapply (wr_read RInt); [reflexivity|reflexivity|]. apply hread_ok; [exact Hp|]. intros m e o Ex Ho. cbn [fits1] in Hf. rewrite Ex in Hf. destruct Hf as [Hs Hq]. cbn [fst snd]. split; [exact Ho|]. destruct Ho as (_ & _ & Hl). rewrite (Hl Hq).
    rewrite wrap64_id; [reflexivity|]. apply int64_iff. unfold int64, size_of in *. lia.
  - (* HStrLen *) eapply (wr_read RInt); [reflexivity|reflexivity|]. apply hread_ok; [exact Hp|]. intros m e o _ Ho. cbn [fst snd]. rewrite (hrel_get P m o f Ho). auto.
  - (* HIncrBy *) destruct Hf as [Hd Hf]. eapply (wr_good RInt); [reflexivity|reflexivity|]. apply hwrite_ok; [exact Hp|]. intros m o Hx Ho. pose proof (hrel_set P m o f (itoa d) Ho (plain_itoa d Hd)) as Hs.
    assert (Hm : h_map o !! f = try_int64 <$> m !! f) by (destruct Ho as (-> & _); apply lookup_fmap). unfold g_hincr. rewrite Hm.
    destruct Hx as [[_ ->]|[e Ex]]; [rewrite lookup_empty; cbn; split; [exact Hs|reflexivity]|]. rewrite Ex in Hf.
    destruct (m !! f) as [s|]; [|cbn; split; [exact Hs|reflexivity]]. destruct Hf as [Hne Hz]. cbn [fmap option_fmap option_map]. unfold try_int64. destruct (atoi s) as [n|].
    + rewrite (Hz n eq_refl). cbn. rewrite wrap64_id by (apply int64_iff, Hd). split; [exact Hs|reflexivity].
    + destruct (parse_float s); cbn; [split; [exact Ho|reflexivity]|]. rewrite bool_decide_eq_false_2 by exact Hne. cbn. split; [exact Ho|reflexivity].
  - (* HIncrByFloat *) destruct Hf as [Hd Hf]. eapply (wr_good RFloat); [reflexivity|reflexivity|]. apply hwrite_ok; [exact Hp|]. intros m o Hx Ho. pose proof (hrel_set P m o f (format_float d) Ho Hd) as Hs.
    assert (Hm : h_map o !! f = try_int64 <$> m !! f) by (destruct Ho as (-> & _); apply lookup_fmap). unfold g_hincr. rewrite Hm.
    destruct Hx as [[_ ->]|[e Ex]]; [rewrite lookup_empty; cbn [fmap option_fmap option_map fst snd]; split; [exact Hs|reflexivity]|]. rewrite Ex in Hf.
    destruct (m !! f) as [s|]; [|cbn [fmap option_fmap option_map fst snd]; split; [exact Hs|reflexivity]]. destruct Hf as [Hne [Ha Hz]]. cbn [fmap option_fmap option_map]. unfold try_int64. rewrite Ha, Hz. cbn [hincrf_val].
    rewrite bool_decide_eq_false_2 by exact Hne. cbn [fst snd]. split; [exact Ho|reflexivity].
  - (* HMSet *) destruct Hf as [_ Hf]. eapply (wr_good RInt); [reflexivity|reflexivity|]. apply hwrite_ok; [exact Hp|]. intros m o _ Ho. destruct (hrel_mset P fv m o 0 Ho Hf) as [H1 H2].
    destruct (o_mset o fv 0) as [o' n]. cbn [fst snd] in *. split; [exact H1|]. rewrite H2. reflexivity.
  - (* HMGet *) eapply (wr_read RSlots); [reflexivity|reflexivity|]. apply hread_ok; [exact Hp|]. intros m e o _ Ho. cbn [fst snd]. split; [exact Ho|]. f_equal. apply map_ext. intros f. rewrite (hrel_get P m o f Ho). reflexivity.
  - (* HKeys *) unfold good1. cbn [abs1 ref1 fits1 spoils] in *. destruct (live t x) as [[[s|m] e]|]; cbn in Hp; [| |destruct Hf; reflexivity].
    + destruct Hp as (y & -> & Hy). eexists _, _. split; [reflexivity|]. split; [cbn; eauto|]. split; reflexivity.
    + destruct Hp as (o & -> & H1 & H2). cbn [fst snd]. eexists _, _. split; [reflexivity|]. split; [cbn; eauto|]. cbn. split; [|reflexivity]. rewrite H1. 
      change (map fst (map_to_list (try_int64 <$> m)) ≡ₚ (map_to_list m).*1). rewrite map_to_list_fmap. rewrite <- list_fmap_compose. reflexivity.
  - (* HVals *) unfold good1. cbn [abs1 ref1 fits1 spoils] in *. destruct (live t x) as [[[s|m] e]|]; cbn in Hp; [| |destruct Hf].
    + destruct Hp as (y & -> & Hy). eexists _, _. split; [reflexivity|]. split; [cbn; eauto|]. split; reflexivity.
    + destruct Hp as (o & -> & H1 & H2). cbn [fst snd]. eexists _, _. split; [reflexivity|]. split; [cbn; eauto|]. cbn [on_hash snd same_reply]. split; [|reflexivity]. rewrite H1, map_to_list_fmap.
      assert (G : forall l, (forall f s, (f, s) ∈ l -> m !! f = Some s) -> omap (fun e : gostr * gval => match snd e with VStr s => Some s | _ => None end) (prod_map id try_int64 <$> l) = l.*2).
      { induction l as [|[f s] l IH]; intros Hl; [reflexivity|]. cbn [fmap list_fmap omap list_omap prod_map fst snd]. destruct (Hf f s (Hl f s ltac:(left))) as [A B]. unfold try_int64 at 1. rewrite A, B. f_equal. apply IH. intros. apply Hl. right. auto. }
      rewrite G; [reflexivity|]. intros f s. apply elem_of_map_to_list.
  - (* HGetAll *) unfold good1. cbn [abs1 ref1 fits1 spoils] in *. destruct (live t x) as [[[s|m] e]|]; cbn in Hp; [|destruct Hf|destruct Hf].
    destruct Hp as (y & -> & Hy). eexists _, _. split; [reflexivity|]. split; [cbn; eauto|]. reflexivity.
  - (* HGet *) eapply (wr_read RStr); [reflexivity|reflexivity|]. apply hread_ok; [exact Hp|]. intros m e o _ Ho. cbn [fst snd]. rewrite (hrel_get P m o f Ho). split; [exact Ho|]. destruct (m !! f); reflexivity.
Qed.

(** ** Calls on several keys *)
Lemma rel_upd q st V k x v : rel q st V -> rel1 (k ∈ q) x v -> rel q (at_key st k x) (upd V k v).
Proof. intros H H1 k'. unfold at_key, upd. destruct (decide (k' = k)) as [->|]; auto. Qed.
Lemma rel_put q st V k v : rel q st V -> plain v -> dl_of (st k) = None -> rel q (at_key st k (Some (Txt v, None))) (upd V k (put v (V k))).
Proof.
  intros H Hv Hd. apply rel_upd; [exact H|]. cbn. unfold put. eexists. split; [|apply tval_put, Hv]. f_equal. specialize (H k).
  destruct (st k) as [[[s|m] e]|]; cbn in H, Hd; [destruct H as (? & -> & _)|destruct H as (? & -> & _)|rewrite H]; auto.
Qed.
Lemma rel_mset q kv : forall st V, rel q st V -> (forall k v, (k, v) ∈ kv -> plain v /\ dl_of (st k) = None) ->
  rel q (foldl (fun s p => at_key s (fst p) (Some (Txt (snd p), None))) st kv) (a_mset kv V).
Proof.
  induction kv as [|[k v] kv IH]; intros st V H Hk; [exact H|]. cbn [foldl a_mset fst snd]. destruct (Hk k v ltac:(left)) as [Hv Hd]. apply IH.
  - apply rel_put; auto.
  - intros k' v' Hi. destruct (Hk k' v' ltac:(right; auto)) as [Hv' Hd']. split; [exact Hv'|]. unfold at_key. destruct (decide (k' = k)); [reflexivity|exact Hd'].
Qed.
Lemma rel_msetnx_all q kv : forall st V n, rel q st V -> NoDup (map fst kv) -> (forall k v, (k, v) ∈ kv -> plain v) -> (forall k v, (k, v) ∈ kv -> st k = None) ->
  rel q (foldl (fun s p => at_key s (fst p) (Some (Txt (snd p), None))) st kv) (fst (a_msetnx kv n V)) /\ snd (a_msetnx kv n V) = n + zlen kv.
Proof.
  induction kv as [|[k v] kv IH]; intros st V n H Hd Hv Ha; [cbn; split; [exact H|unfold zlen; cbn; lia]|]. cbn [foldl a_msetnx fst snd].
  cbn [map fst] in Hd. apply list.NoDup_cons in Hd as [Hn Hd]. assert (E : st k = None) by (apply (Ha k v); left). pose proof (H k) as Hk. rewrite E in Hk. cbn in Hk. destruct (fst (V k)) eqn:Ef; [rewrite Hk in Ef; discriminate|].
  rewrite zlen_cons. replace (n + (zlen kv + 1)) with (n + 1 + zlen kv) by lia. replace (n + (1 + zlen kv)) with (n + 1 + zlen kv) by lia. apply IH; auto.
  - apply rel_put; auto; [apply (Hv k v); left|rewrite E; reflexivity].
  - intros k' v' Hi. apply (Hv k' v'). right. auto.
  - intros k' v' Hi. unfold at_key. destruct (decide (k' = k)) as [->|]; [|apply (Ha k' v'); right; auto]. destruct Hn. apply elem_of_list_fmap. exists (k, v'). auto.
Qed.
Lemma msetnx_none q kv : forall st V n, rel q st V -> (forall k v, (k, v) ∈ kv -> st k <> None) -> a_msetnx kv n V = (V, n).
Proof.
  induction kv as [|[k v] kv IH]; intros st V n H Ha; [reflexivity|]. cbn [a_msetnx]. pose proof (proj2 (rel1_fst_none _ _ _ (H k))) as Hk.
  destruct (fst (V k)) eqn:E; [|destruct (Ha k v); [left|auto]]. apply (IH st); auto. intros k' v' Hi. apply (Ha k' v'). right. auto.
Qed.
Lemma settle_fresh t ks st k : (forall k, k ∈ ks -> expired t (st k) = false) -> settle t ks st k = st k.
Proof. intros H. unfold settle. destruct (decide (k ∈ ks)) as [Hk|]; [|reflexivity]. unfold live. rewrite H by auto. reflexivity. Qed.
Lemma rel_ext q st st' V : rel q st V -> (forall k, st' k = st k) -> rel q st' V.
Proof. intros H E k. rewrite E. apply H. Qed.
Lemma live_live t x : live t (live t x) = live t x.
Proof. unfold live. destruct (expired t x) eqn:E; [reflexivity|rewrite E; reflexivity]. Qed.
Lemma rel_mget q t ks : forall st V, rel q st V ->
  rel q (settle t ks st) (fst (a_mget t ks V)) /\ snd (a_mget t ks V) = map (fun k => slot_of_item (settle t ks st k)) ks.
Proof.
  induction ks as [|k ks IH]; intros st V H; [split; [|reflexivity]; apply (rel_ext q st); auto|]. cbn [a_mget].
  pose proof (rel1_purge _ t _ _ (H k)) as Hk.
  destruct (IH (at_key st k (live t (st k))) (upd V k (purge t (V k)))) as [H1 H2]; [apply rel_upd; auto|].
  destruct (a_mget t ks _) as [V' l]. cbn [fst snd] in *.
  assert (Hs : forall k', settle t (k :: ks) st k' = settle t ks (at_key st k (live t (st k))) k').
  { intros k'. unfold settle, at_key. destruct (decide (k' = k)) as [->|Hne].
    - rewrite decide_True by left. destruct (decide (k ∈ ks)); [rewrite live_live|]; reflexivity.
    - destruct (decide (k' ∈ ks)) as [Hi|Hi]; [rewrite decide_True by (right; auto); reflexivity|]. rewrite decide_False; [reflexivity|]. rewrite elem_of_cons. tauto. }
  split; [apply (rel_ext q _ _ _ H1 Hs)|]. cbn [map]. f_equal.
  - rewrite Hs. unfold settle, at_key. destruct (decide (k = k)) as [_|]; [|tauto]. assert (E : (if decide (k ∈ ks) then live t (live t (st k)) else live t (st k)) = live t (st k)) by (destruct (decide _); [apply live_live|reflexivity]).
    rewrite E. destruct (live t (st k)) as [[[s|m] e]|]; cbn in Hk.
    + destruct Hk as (y & -> & Hy). cbn. rewrite (tval_fmt s y Hy). reflexivity.
    + destruct Hk as (o & -> & _). reflexivity.
    + rewrite Hk. reflexivity.
  - rewrite H2. apply map_ext. intros k'. rewrite Hs. reflexivity.
Qed.
Lemma rel_exists q ks : forall st V n, rel q st V -> a_exists ks n V = n + zlen (List.filter (fun k => present (st k)) ks).
Proof.
  induction ks as [|k ks IH]; intros st V n H; [unfold zlen; cbn; lia|]. cbn [a_exists List.filter]. rewrite (IH st) by auto.
  pose proof (rel1_fst_none _ _ _ (H k)) as Hk. destruct (st k) as [x|]; cbn [present]; destruct (fst (V k)); rewrite ?zlen_cons; try lia; exfalso; destruct Hk as [A B]; discriminate (A eq_refl) || discriminate (B eq_refl).
Qed.
Lemma filter_ext_present st st' ks : (forall k : gostr, st' k = st k) -> List.filter (fun k => present (st' k)) ks = List.filter (fun k => present (st k)) ks.
Proof. intros H. apply List.filter_ext. intros k. rewrite H. reflexivity. Qed.

Lemma existsb_none {A} (f : A -> bool) l : (forall x, In x l -> f x = false) -> existsb f l = false.
Proof. induction l as [|x l IH]; intros H; [reflexivity|]. cbn. rewrite H by (left; reflexivity). apply IH. intros. apply H. right. auto. Qed.
Lemma step c t st V q : rel q st V -> fits c t st q ->
  exists V' r, abs c t V = Some (V', r) /\ rel (spoil c q) (fst (ref_call c t st)) V' /\ same_reply r (snd (ref_call c t st)).
Proof.
  intros H Hf. destruct (single c) as [k|] eqn:Hk.
  - assert (Hf1 : fits1 c t (st k) (k ∈ q)) by (destruct c; try discriminate Hk; injection Hk as <-; exact Hf).
    destruct (step1 c k t (st k) (V k) (k ∈ q) Hk (H k) Hf1) as (v' & r & E & Hr & Hs). exists (upd V k v'), r.
    rewrite (abs_single c k t V Hk), E. split; [reflexivity|].
    assert (Er : ref_call c t st = (at_key st k (fst (ref1 c t (live t (st k)))), snd (ref1 c t (live t (st k))))).
    { destruct c; try discriminate Hk; injection Hk as <-; unfold ref_call; cbn [keys_of]; match goal with |- context [ref1 ?a ?b ?c] => destruct (ref1 a b c) end; reflexivity. }
    rewrite Er. cbn [fst snd]. split; [|exact Hs]. intros k'. unfold at_key, upd. destruct (decide (k' = k)) as [->|Hne].
    + revert Hr. apply rel1_weaken. destruct c; cbn; auto. injection Hk as <-. intros _. left.
    + eapply rel1_weaken; [|apply H]. destruct c; cbn; auto. intros Hi. right. exact Hi.
  - destruct c; try discriminate Hk; cbn [fits keys_of] in Hf; cbn [spoil abs]; try (destruct Hf; fail).
    + (* MSet *) eexists _, _. split; [reflexivity|]. split; [|reflexivity]. cbn [ref_call fst]. apply rel_mset; auto.
    + (* MSetNX *) destruct Hf as (Hd & Hv & Ha). cbn [ref_call]. set (st' := settle t (map fst kv) st).
      assert (Hst : forall k, st' k = st k). { intros k. apply settle_fresh. intros k' Hi. apply elem_of_list_fmap in Hi as ([k2 v2] & -> & Hi). apply (Hv k2 v2 Hi). }
      assert (H' : rel q st' V) by (apply (rel_ext q st); auto).
      destruct kv as [|[k0 v0] kv'] eqn:Ekv; [eexists _, _; split; [reflexivity|]; split; [exact H'|reflexivity]|]. rewrite <- Ekv in *.
      destruct Ha as [Ha|Ha].
      * rewrite (existsb_none (fun p => present (st' (fst p))) kv).
        -- destruct (rel_msetnx_all q kv st' V 0 H' Hd) as [G1 G2]; [intros; eapply Hv; eauto|intros; rewrite Hst; eapply Ha; eauto|].
           destruct (a_msetnx kv 0 V) as [V' n]. cbn [fst snd] in *. eexists _, _. split; [reflexivity|]. split; [exact G1|]. rewrite G2. reflexivity.
        -- intros [k v] Hi. cbn [fst]. rewrite Hst, (Ha k v) by (apply elem_of_list_In, Hi). reflexivity.
      * rewrite (msetnx_none q kv st' V 0 H') by (intros; rewrite Hst; eapply Ha; eauto).
        assert (Ex : existsb (fun p => present (st' (fst p))) kv = true).
        { rewrite Ekv. cbn [existsb fst]. rewrite Hst. specialize (Ha k0 v0 ltac:(rewrite Ekv; left)). destruct (st k0); [reflexivity|tauto]. }
        rewrite Ex. eexists _, _. split; [reflexivity|]. split; [exact H'|reflexivity].
    + (* MGet *) destruct (rel_mget q t ks st V H) as [G1 G2]. destruct (a_mget t ks V) as [V' l]. cbn [fst snd] in *. eexists _, _. split; [reflexivity|]. split; [exact G1|]. rewrite G2. reflexivity.
    + (* Flush *) eexists _, _. split; [reflexivity|]. split; [|reflexivity]. intros k. reflexivity.
    + (* Exists *) eexists _, _. split; [reflexivity|]. cbn [ref_call fst snd]. split; [apply (rel_ext q st); [exact H|]; intros k; apply settle_fresh, Hf|].
      rewrite (rel_exists q ks st V 0 H). rewrite (filter_ext_present st (settle t ks st)); [reflexivity|]. intros k. apply settle_fresh, Hf.
    + (* Cron *) eexists _, _. split; [reflexivity|]. split; [|reflexivity]. cbn [ref_call fst]. intros k. specialize (H k). unfold a_cron. destruct (zero_time <? t).
      * specialize (Hf k). rewrite Hf. destruct (st k) as [[[s|m] e]|]; cbn in H; [destruct H as (y & -> & _)|destruct H as (o & -> & _)|rewrite H]; reflexivity.
      * specialize (Hf k). unfold live. destruct (st k) as [[[s|m] e]|]; cbn in H, Hf; subst; cbn [expired]; [destruct H as (y & -> & Hy); exists y|destruct H as (o & -> & Ho); exists o|rewrite H; reflexivity]; auto.
Qed.

Lemma run_fits h : forall st V q w, ready w -> veq (view w) V -> rel q st V -> all_fit h st q ->
  exists w' rs, run_hist h w = Done w' rs /\ Forall2 same_reply rs (ref_run h st).
Proof.
  induction h as [|[t c] h IH]; intros st V q w Hr Hv H Hf; [exists w, []; split; [reflexivity|constructor]|].
  destruct Hf as [Hf Hh]. assert (H0 : rel q st (view w)) by (intros k; rewrite Hv; apply H).
  destruct (step c t st (view w) q H0 Hf) as (V' & r & E & H' & Hs). destruct (run_intro c t w V' r Hr E) as (w1 & E1 & Hr1 & Hv1).
  destruct (IH _ V' _ w1 Hr1 Hv1 H' Hh) as (w' & rs & E2 & H2). cbn [run_hist ref_run]. rewrite E1, E2.
  destruct (ref_call c t st) as [st' r'] eqn:Er. cbn [fst snd] in *. exists w', (r :: rs). split; [reflexivity|]. constructor; auto.
Qed.

(** ** C168

    Full statement: for every history [h].  It fails whenever one of the defects is met. *)
Theorem C168_reference_refuted : exists h rs w, run_hist h (new_world 0) = Done w rs /\ ~ Forall2 same_reply rs (ref_run h no_keys).
Proof.
  exists [(1, CSet (bs "k") (bs "1.0")); (2, CGet (bs "k"))]. eexists _, _. split; [vm_compute; reflexivity|].
  intros H. vm_compute in H. inversion_clear H as [|? ? ? ? _ H1]. inversion_clear H1 as [|? ? ? ? H2 _]. discriminate H2.
Qed.
(** Every call of a history that fits returns, and every reply is the one of the reference store. *)
Theorem C168_reference_partial t0 h : all_fit h no_keys [] ->
  exists w rs, run_hist h (new_world t0) = Done w rs /\ Forall2 same_reply rs (ref_run h no_keys).
Proof.
  intros Hf. apply (run_fits h no_keys (fun _ => (None, None)) [] (new_world t0)); auto using ready_new.
  - intros k. apply view_new.
  - intros k. reflexivity.
Qed.
Definition demo_fit : list (Z * call) :=
  [(1, CSet (bs "a") (bs "hello")); (2, CAppend (bs "a") (bs " world")); (3, CGetRange (bs "a") (-5) (-1)); (4, CSetRange (bs "a") 5 (bs "-"));
   (5, CSetEX (bs "s") (bs "tmp") 1); (2000000000, CGet (bs "s")); (2000000001, CSetNX (bs "s") (bs "7")); (2000000002, CIncrBy (bs "s") 5); (2000000003, CDecrBy (bs "s") 20);
   (2000000009, CMGet [bs "a"; bs "s"; bs "none"]); (2000000010, CExists [bs "a"; bs "h"]);
   (2000000011, CMSetNX [(bs "u", bs "one"); (bs "v", bs "two")]); (2000000012, CDel (bs "a")); (2000000013, CFlush); (2000000014, CType (bs "u"))].
Example C168_nonvacuous : all_fit demo_fit no_keys [] /\
  ref_run demo_fit no_keys = [RStr (bs "OK", None); RInt (11, None); RStr (bs "world", None); RInt (11, None); RStr (bs "OK", None); RStr ([], Some ErrKeyNil);
    RInt (1, None); RInt (12, None); RInt (-8, None); RSlots ([SlotStr (bs "hello-world"); SlotStr (bs "-8"); SlotErr ErrKeyNil], None);
    RInt (1, None); RInt (2, None); RInt (1, None); RUnit; RStr (bs "none", None)].
Proof.
  split; [|vm_compute; reflexivity]. unfold demo_fit. cbn [all_fit]. repeat match goal with |- fits _ _ _ _ /\ _ => split end.
  all: cbn [fits keys_of fits1 spoil]. all: repeat match goal with |- _ /\ _ => split end. all: try (exact I).
  all: try (match goal with |- plain _ => vm_compute; reflexivity | |- _ = None => vm_compute; reflexivity | |- _ = false => vm_compute; reflexivity | |- _ < _ => lia end).
  all: try (match goal with |- context [live ?t ?x] => let y := eval vm_compute in (live t x) in replace (live t x) with y by (vm_compute; reflexivity) end; cbn iota beta).
  all: try (match goal with |- counts ?d ?x => let y := eval vm_compute in x in replace x with y by (vm_compute; reflexivity) end; intros n E; vm_compute in E; injection E as <-; unfold int64; lia).
  - vm_compute. reflexivity.
  - change (5 <? 0) with false. vm_compute. reflexivity.
  - intros k Hk. repeat (apply elem_of_cons in Hk as [->|Hk]; [vm_compute; reflexivity|]). inversion Hk.
  - apply (bool_decide_unpack _). vm_compute. exact I.
  - intros k v Hk. split; repeat (apply elem_of_cons in Hk as [Hk|Hk]; [injection Hk as -> ->; vm_compute; reflexivity|]); inversion Hk.
  - left. intros k v Hk. repeat (apply elem_of_cons in Hk as [Hk|Hk]; [injection Hk as -> ->; vm_compute; reflexivity|]); inversion Hk.
Qed.
Definition demo_fit_hash : list (Z * call) :=
  [(1, CHSet (bs "h") (bs "f") (bs "x")); (2, CHSetNX (bs "h") (bs "g") (bs "y")); (3, CHLen (bs "h")); (4, CHExists (bs "h") (bs "g")); (5, CHDel (bs "h") [bs "g"; bs "q"]);
   (6, CHKeys (bs "h")); (7, CHGet (bs "h") (bs "f")); (8, CGet (bs "h"))].
Example C168_hash_nonvacuous : all_fit demo_fit_hash no_keys [] /\
  ref_run demo_fit_hash no_keys = [RInt (1, None); RInt (1, None); RInt (2, None); RInt (1, None); RInt (1, None); RList ([bs "f"], None); RStr (bs "x", None); RStr ([], Some ErrWrongType)].
Proof.
  split; [|vm_compute; reflexivity]. unfold demo_fit_hash. cbn [all_fit]. repeat match goal with |- fits _ _ _ _ /\ _ => split end.
  all: cbn [fits keys_of fits1 spoil]. all: try (exact I).
  - vm_compute. reflexivity.
  - split; vm_compute; reflexivity.
  - match goal with |- context [live ?t ?x] => destruct (live t x) as [[[s|m] e]|] eqn:E; [exact I| |exact I] end. split; [|intros H; inversion H].
    apply (f_equal (fun y => match y with Some (Hsh m', _) => size_of m' | _ => 0 end)) in E. cbn beta iota in E. rewrite <- E. vm_compute. reflexivity.
  - match goal with |- context [live ?t ?x] => destruct (live t x) as [[[s|m] e]|] eqn:E; [exact I| |exact I] end. intros H.
    apply (f_equal (fun y => match y with Some (Hsh m', _) => size_of (drop_all [bs "g"; bs "q"] m') | _ => 0 end)) in E. cbn iota beta in E. rewrite H in E. vm_compute in E. discriminate.
  - match goal with |- context [live ?t ?x] => destruct (live t x) as [y|] eqn:E; [discriminate|] end. apply (f_equal (fun y => match y with Some _ => true | None => false end)) in E. vm_compute in E. discriminate.
Qed.
