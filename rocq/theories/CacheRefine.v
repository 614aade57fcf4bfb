(** * CacheRefine: every call of the model follows the key-by-key functions of CacheAbs.v *)
From Verif Require Import Base GoFloat CacheModel CacheSpec CacheAbs.

(** [p], run alone, acts on the key [k] as [f] does and on no other key. *)
Definition sk {R} (k : gostr) (p : prog R) (f : Z -> kview -> option (kview * R)) : Prop :=
  forall d e h n t, wf d h n ->
  match f t (cellat d h k, e !! k) with
  | Some (v', x) => exists d' e' h' n',
      eval p (W (Some d) (Some e) h n false 0 t) = Done (W (Some d') (Some e') h' n' false 0 t) x /\
      wf d' h' n' /\ (cellat d' h' k, e' !! k) = v' /\
      forall k', k' <> k -> cellat d' h' k' = cellat d h k' /\ e' !! k' = e !! k'
  | None => eval p (W (Some d) (Some e) h n false 0 t) = EPanic
  end.

(** one equation per atomic operation *)
Section atoms.
Context (D : gmap gostr gval) (E : gmap gostr Z) (H : gmap positive hobj) (N : positive) (b : bool) (m : nat) (T : Z).
Let w := W (Some D) (Some E) H N b m T.
Lemma ev_ret {R} (r : R) : eval (Ret r) w = Done w r. Proof. reflexivity. Qed.
Lemma ev_lock : eval p_lock (W (Some D) (Some E) H N false 0 T) = Done (W (Some D) (Some E) H N true 0 T) tt. Proof. reflexivity. Qed.
Lemma ev_unlock : eval p_unlock (W (Some D) (Some E) H N true m T) = Done (W (Some D) (Some E) H N false m T) tt. Proof. reflexivity. Qed.
Lemma ev_rlock : eval p_rlock (W (Some D) (Some E) H N false m T) = Done (W (Some D) (Some E) H N false (S m) T) tt. Proof. reflexivity. Qed.
Lemma ev_runlock : eval p_runlock (W (Some D) (Some E) H N b (S m) T) = Done (W (Some D) (Some E) H N b m T) tt. Proof. reflexivity. Qed.
Lemma ev_now : eval p_now w = Done w T. Proof. reflexivity. Qed.
Lemma ev_data_load k : eval (data_load k) w = Done w (D !! k). Proof. reflexivity. Qed.
Lemma ev_data_store k v : eval (data_store k v) w = Done (W (Some (<[k:=v]> D)) (Some E) H N b m T) tt. Proof. reflexivity. Qed.
Lemma ev_data_delete k : eval (data_delete k) w = Done (W (Some (delete k D)) (Some E) H N b m T) tt. Proof. reflexivity. Qed.
Lemma ev_data_los k v : eval (data_load_or_store k v) w =
  match D !! k with Some x => Done w (x, true) | None => Done (W (Some (<[k:=v]> D)) (Some E) H N b m T) (v, false) end.
Proof. cbn. destruct (D !! k); reflexivity. Qed.
Lemma ev_data_keys : eval data_keys w = Done w (map fst (map_to_list D)). Proof. reflexivity. Qed.
Lemma ev_exp_load k : eval (exp_load k) w = Done w (E !! k). Proof. reflexivity. Qed.
Lemma ev_exp_store k t : eval (exp_store k t) w = Done (W (Some D) (Some (<[k:=t]> E)) H N b m T) tt. Proof. reflexivity. Qed.
Lemma ev_exp_delete k : eval (exp_delete k) w = Done (W (Some D) (Some (delete k E)) H N b m T) tt. Proof. reflexivity. Qed.
Lemma ev_data_reset : eval data_reset w = Done (W (Some ∅) (Some E) H N b m T) tt. Proof. reflexivity. Qed.
Lemma ev_exp_reset : eval exp_reset w = Done (W (Some D) (Some ∅) H N b m T) tt. Proof. reflexivity. Qed.
Lemma ev_alloc : eval h_alloc w = Done (W (Some D) (Some E) (<[N:=HObj ∅ 0]> H) (Pos.succ N) b m T) N. Proof. reflexivity. Qed.
Lemma ev_panic {A} : eval (@panic A) w = EPanic. Proof. reflexivity. Qed.
Lemma ev_h_atom {A} l (f : hobj -> hobj * A) : eval (h_atom l f) w =
  match H !! l with None => EPanic | Some o => Done (W (Some D) (Some E) (<[l:=fst (f o)]> H) N b m T) (snd (f o)) end.
Proof. cbn. destruct (H !! l); [|reflexivity]. destruct (f h). reflexivity. Qed.

Definition dead k : bool := match D !! k, E !! k with Some _, Some dl => dl <? T | _, _ => false end.
Lemma ev_expires k dur : eval (expires k dur) w =
  Done (W (Some D) (Some (match dl_after T dur with Some x => <[k:=x]> E | None => delete k E end)) H N b m T) tt.
Proof. unfold expires, dl_after. destruct (dur <=? 0); reflexivity. Qed.
Lemma ev_c_get k : eval (c_get k) w =
  if dead k then Done (W (Some (delete k D)) (Some (delete k E)) H N b m T) None else Done w (D !! k).
Proof.
  unfold c_get, dead. rewrite eval_bind, ev_data_load. destruct (D !! k); [|reflexivity].
  rewrite eval_bind. unfold expired. rewrite eval_bind, ev_exp_load. destruct (E !! k) as [dl|]; [|reflexivity].
  rewrite eval_bind, ev_now. destruct (dl <? T); reflexivity.
Qed.
Lemma ev_load_live k : eval (load_live k) w =
  if dead k then Done (W (Some (delete k D)) (Some (delete k E)) H N b m T) None else Done w (D !! k).
Proof. exact (ev_c_get k). Qed.
End atoms.

Ltac crew := repeat first
  [ rewrite eval_bind | rewrite ev_ret | rewrite ev_lock | rewrite ev_unlock | rewrite ev_rlock | rewrite ev_runlock
  | rewrite ev_now | rewrite ev_data_load | rewrite ev_data_store | rewrite ev_data_delete | rewrite ev_data_los
  | rewrite ev_data_keys | rewrite ev_exp_load | rewrite ev_exp_store | rewrite ev_exp_delete
  | rewrite ev_data_reset | rewrite ev_exp_reset | rewrite ev_alloc | rewrite ev_panic
  | rewrite ev_expires | rewrite ev_c_get | rewrite ev_load_live
  | progress cbn beta iota delta [fst snd negb] ].
Ltac cunf := cbn [call_prog]; unfold pmap;
  unfold m_set, m_setnx, m_setex, m_psetex, m_get, m_getset, m_strlen, m_append, m_setrange, m_getrange, m_incr, m_incrby, m_decr,
  m_decrby, m_incrbyfloat, m_del, m_type, m_hset, m_hsetnx, m_hexists, m_hdel, m_hlen, m_hstrlen, m_hincrby, m_hincrbyfloat,
  m_hmset, m_hmget, m_hkeys, m_hvals, m_hgetall, m_hget; unfold m_incrby, incr_by, get_hash_entry, locked, rlocked, noerr.

Ltac ared := cbn [abs1 wr purge put fst snd fmt_cret fmt_cell a_incr a_hwrite a_hread noerr].

Lemma incr_val_scalar x d y n : incr_val x d = Some (y, n) -> scalar y.
Proof. destruct x; simpl; intros E; inversion E; exact I. Qed.
Create HintDb cwf.
Global Hint Resolve wf_insert wf_delete wf_heap wf_new try_scalar flat_set flat_delete flat_empty
  incr_val_scalar mk_is_Some : cwf.
Global Hint Extern 1 (scalar (_ _)) => exact I : cwf.

(** hash object operations *)
Section hops.
Context (D : gmap gostr gval) (E : gmap gostr Z) (N : positive) (b : bool) (m : nat) (T : Z).
Notation wH H := (W (Some D) (Some E) H N b m T).
Lemma ev_h_load H l o f : H !! l = Some o -> eval (h_load l f) (wH H) = Done (wH H) (h_map o !! f).
Proof. intros Ho. unfold h_load. rewrite ev_h_atom, Ho. cbn [fst snd]. rewrite insert_id by auto. reflexivity. Qed.
Lemma ev_he_get H l o f : H !! l = Some o -> eval (he_get l f) (wH H) = Done (wH H) (o_get o f).
Proof. intros Ho. unfold he_get. rewrite eval_bind, (ev_h_load _ _ _ _ Ho). unfold o_get. reflexivity. Qed.
Lemma ev_h_get_len H l o : H !! l = Some o -> eval (h_get_len l) (wH H) = Done (wH H) (h_len o).
Proof. intros Ho. unfold h_get_len. rewrite ev_h_atom, Ho. cbn [fst snd]. rewrite insert_id by auto. reflexivity. Qed.
Lemma ev_h_set_len H l o n : H !! l = Some o -> eval (h_set_len l n) (wH H) = Done (wH (<[l:=HObj (h_map o) n]> H)) tt.
Proof. intros Ho. unfold h_set_len. rewrite ev_h_atom, Ho. reflexivity. Qed.
Lemma ev_h_visit_sub H l o es : H !! l = Some o -> (forall k v, (k, v) ∈ es -> h_map o !! k = Some v) ->
  eval (h_visit l (map fst es)) (wH H) = Done (wH H) es.
Proof.
  intros Ho. induction es as [|[k v] r IH]; intros Hs; cbn [h_visit map fst]; [reflexivity|].
  rewrite eval_bind, (ev_h_load _ _ _ _ Ho), eval_bind, IH by (intros k' v' Hin; apply Hs; right; exact Hin).
  rewrite (Hs k v) by left. reflexivity.
Qed.
Lemma ev_h_range H l o : H !! l = Some o -> eval (h_range l) (wH H) = Done (wH H) (map_to_list (h_map o)).
Proof.
  intros Ho. unfold h_range. rewrite eval_bind. unfold h_keys. rewrite ev_h_atom, Ho. cbn [fst snd]. rewrite insert_id by auto.
  rewrite (ev_h_visit_sub _ _ _ _ Ho); [reflexivity|].
  intros k v Hin. apply elem_of_map_to_list. exact Hin.
Qed.
Lemma ev_h_delete H l o f : H !! l = Some o -> eval (h_delete l f) (wH H) = Done (wH (<[l:=HObj (delete f (h_map o)) (h_len o)]> H)) tt.
Proof. intros Ho. unfold h_delete. rewrite ev_h_atom, Ho. reflexivity. Qed.
Lemma ev_h_los H l o f v : H !! l = Some o -> eval (h_load_or_store l f v) (wH H) =
  match h_map o !! f with
  | Some x => Done (wH H) (x, true)
  | None => Done (wH (<[l:=HObj (<[f:=v]> (h_map o)) (h_len o)]> H)) (v, false)
  end.
Proof.
  intros Ho. unfold h_load_or_store. rewrite ev_h_atom, Ho. destruct (h_map o !! f); cbn [fst snd]; [|reflexivity].
  rewrite insert_id by auto. reflexivity.
Qed.
Lemma ev_he_set H l o f v : H !! l = Some o ->
  eval (he_set l f v) (wH H) = Done (wH (<[l:=o_set o f v]> H)) (o_isnew o f).
Proof.
  intros Ho. unfold he_set, o_set, o_isnew. rewrite eval_bind, (ev_h_los _ _ _ _ _ Ho).
  destruct (h_map o !! f) as [x|] eqn:Ef; crew.
  - unfold h_store. rewrite ev_h_atom, Ho. crew.
    erewrite ev_h_get_len by apply lookup_insert. crew. cbn [h_len].
    erewrite ev_h_set_len by apply lookup_insert. crew. cbn [h_map].
    rewrite insert_insert. reflexivity.
  - erewrite ev_h_get_len by apply lookup_insert. crew. cbn [h_len].
    erewrite ev_h_set_len by apply lookup_insert. crew. cbn [h_map].
    rewrite insert_insert. reflexivity.
Qed.
Lemma ev_hmset H l o fv n : H !! l = Some o ->
  eval (hmset_loop l fv n) (wH H) = Done (wH (<[l:=fst (o_mset o fv n)]> H)) (snd (o_mset o fv n)).
Proof.
  revert H o n. induction fv as [|[f v] r IH]; intros H o n Ho; cbn [hmset_loop o_mset].
  - rewrite ev_ret. cbn [fst snd]. rewrite insert_id by auto. reflexivity.
  - rewrite eval_bind, (ev_he_set _ _ _ _ _ Ho). erewrite IH by apply lookup_insert.
    rewrite insert_insert. reflexivity.
Qed.
Lemma ev_hdel H l o fs n : H !! l = Some o ->
  eval (hdel_loop l fs n) (wH H) = Done (wH (<[l:=fst (o_del o fs n)]> H)) (snd (o_del o fs n)).
Proof.
  revert H o n. induction fs as [|f r IH]; intros H o n Ho; cbn [hdel_loop o_del].
  - rewrite ev_ret. cbn [fst snd]. rewrite insert_id by auto. reflexivity.
  - rewrite eval_bind, (ev_he_get _ _ _ _ Ho). destruct (o_get o f).
    + rewrite eval_bind, (ev_h_delete _ _ _ _ Ho). erewrite IH by apply lookup_insert.
      rewrite insert_insert. reflexivity.
    + apply IH, Ho.
Qed.
Lemma ev_hmget_some H l o fs : H !! l = Some o ->
  eval (hmget_loop (HEntry l) fs) (wH H) = Done (wH H) (map (fun f => slot_field (o_get o f)) fs).
Proof.
  intros Ho. induction fs as [|f r IH]; cbn [hmget_loop map]; [reflexivity|].
  rewrite eval_bind, eval_bind, (ev_he_get _ _ _ _ Ho). rewrite ev_ret, eval_bind, IH. reflexivity.
Qed.
Lemma ev_hmget_nil H fs :
  eval (hmget_loop HNil fs) (wH H) = Done (wH H) (map (fun _ => SlotErr ErrKeyNil) fs).
Proof.
  induction fs as [|f r IH]; cbn [hmget_loop map]; [reflexivity|].
  rewrite eval_bind, ev_ret, eval_bind, IH. reflexivity.
Qed.
End hops.

Lemma flat_mset o fv n : flat o -> flat (fst (o_mset o fv n)).
Proof. revert o n. induction fv as [|[f v] r IH]; intros o n Ho; simpl; [exact Ho|]. apply IH, flat_set, Ho. Qed.
Lemma flat_del o fs n : flat o -> flat (fst (o_del o fs n)).
Proof.
  revert o n. induction fs as [|f r IH]; intros o n Ho; simpl; [exact Ho|].
  destruct (o_get o f); apply IH; auto. destruct o. apply flat_delete, Ho.
Qed.
Lemma flat_len' o n : flat o -> flat (HObj (h_map o) n).
Proof. exact (fun H => H). Qed.
Lemma flat_insert' o n f v : scalar v -> flat o -> flat (HObj (<[f:=v]> (h_map o)) n).
Proof. intros Hv H f' x. simpl. rewrite lookup_insert_Some. intros [[_ <-]|[_ E]]; [auto|eapply H, E]. Qed.
Global Hint Resolve flat_mset flat_del flat_len' flat_insert' : cwf.

(** The state of the key: absent / scalar / hash, and its deadline relative to now. *)
Lemma key_cases d h n k : wf d h n ->
  (d !! k = None /\ cellat d h k = None) \/
  (exists v, d !! k = Some v /\ scalar v /\ cellat d h k = Some (CV v)) \/
  (exists l o, d !! k = Some (VHash l) /\ h !! l = Some o /\ cellat d h k = Some (CH o) /\ flat o).
Proof.
  intros W. destruct (d !! k) as [v|] eqn:E.
  - destruct v; try (right; left; eexists; split; [reflexivity|]; split; [exact I|];
      apply cellat_scalar; [exact E|exact I]).
    right; right. destruct (wf_ptr _ _ _ W _ _ E) as [o Ho]. exists l, o.
    split; [reflexivity|]. split; [exact Ho|]. split; [eapply cellat_hash; eauto|].
    intros f v. eapply wf_flat; eauto.
  - left. split; [reflexivity|]. apply cellat_None, E.
Qed.

(** The calls about one key. *)
Definition single (c : call) : option gostr :=
  match c with
  | CMSet _ | CMSetNX _ | CMGet _ | CExists _ => None
  | _ => match keys_of c with Some [k] => Some k | _ => None end
  end.

(** closes the four conjuncts of [sk] once the final world is syntactically known *)
Ltac fin_view :=
  unfold put; cbn [fst snd];
  repeat first
    [ rewrite lookup_delete | rewrite lookup_insert
    | rewrite cellat_delete | rewrite cellat_insert by eauto with cwf
    | rewrite cellat_new | erewrite cellat_heap by eauto with cwf ].
Ltac fin_other :=
  let k' := fresh "k'" in let Hk := fresh in
  intros k' Hk;
  repeat first
    [ rewrite lookup_delete_ne by auto | rewrite lookup_insert_ne by auto
    | rewrite cellat_delete_ne by auto
    | erewrite cellat_new_ne by eauto with cwf
    | rewrite cellat_insert_ne by auto
    | erewrite cellat_heap_ne by eauto with cwf ];
  auto.
Ltac fin := do 4 eexists; split; [reflexivity|]; split; [solve [eauto 8 with cwf] |]; split;
   [fin_view; congruence| solve [fin_other]].
Ltac cases_ := match goal with
    | |- context [if ?a <? ?b then _ else _] => destruct (a <? b) eqn:?
    | |- context [if ?a <=? ?b then _ else _] => destruct (a <=? b) eqn:?
    | |- context [if ?a >? ?b then _ else _] => destruct (a >? b) eqn:?
    | |- context [if ?a =? ?b then _ else _] => destruct (a =? b) eqn:?
    | |- context [match dl_after ?a ?b with _ => _ end] => destruct (dl_after a b) eqn:?
    | |- context [match fmt_string ?x with _ => _ end] => destruct (fmt_string x) eqn:?
    | |- context [match incr_val ?x ?y with _ => _ end] => destruct (incr_val x y) as [[? ?]|] eqn:?
    | |- context [match hincr_val ?x ?y with _ => _ end] => destruct (hincr_val x y) eqn:?
    | |- context [match hincrf_val ?x ?y with _ => _ end] => destruct (hincrf_val x y) eqn:?
    | |- context [match o_get ?x ?y with _ => _ end] => destruct (o_get x y) eqn:?
    | |- context [match h_map ?x !! ?y with _ => _ end] => destruct (h_map x !! y) eqn:?
    | |- context [match (h_map ?x) !! ?y with _ => _ end] => destruct (h_map x !! y) eqn:?
    end.

Lemma sk_string c :
  match c with
  | CHSet _ _ _ | CHSetNX _ _ _ | CHExists _ _ | CHDel _ _ | CHLen _ | CHStrLen _ _ | CHIncrBy _ _ _
  | CHIncrByFloat _ _ _ | CHMSet _ _ | CHMGet _ _ | CHKeys _ | CHVals _ | CHGetAll _ | CHGet _ _ => True
  | _ => match single c with Some k => sk k (call_prog c) (abs1 c) | None => True end
  end.
Proof.
  destruct c; try exact I; cbn [single keys_of];
  intros D E H N T HW;
  match goal with |- context [cellat D H ?k] =>
    destruct (key_cases D H N k HW) as [[Ed Ec]|[(x & Ed & Hx & Ec)|(l & o & Ed & Ho & Ec & Hf)]];
    rewrite Ec; ared; destruct (E !! k) as [dl|] eqn:Ee
  end;
  cunf; unfold fmt_ret, fmt_cret, fmt_cell;
  repeat (crew; unfold dead; rewrite ?Ed, ?Ee; cbn [fst snd incr_val fmt_string]; crew;
    try (progress (rewrite ?Ed, ?Ee; cbn [fst snd incr_val fmt_string])); try cases_).
  all: try solve [reflexivity|fin].
  all: match goal with H : scalar ?x |- _ => destruct x; try destruct H; crew; solve [fin] end.
Qed.
