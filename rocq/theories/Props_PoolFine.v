From stdpp Require Import gmap.
From Verif Require Import Base PoolModel PoolFine.

(** * C185, C186: the fields of the pool, access by access (redis/pool.go)

    The small specification: what is done to the two fields of a Pool that change after Init ([size] and the mutex [l]) by each
    statement, and when two accesses race. *)
Inductive stmt := CopyCreate | CopyPut | CopyClose | Lock | Unlock | Compare | Count.
(** the statement a goroutine does next, if it is one of these *)
Definition stmt_of (pc : fpc) : option stmt :=
  match pc with
  | FCopy => Some CopyCreate            (* pool.create(), :44 *)
  | FGot _ | FFail => Some CopyPut      (* defer pool.Put(conn), :101 and :115 *)
  | FOpen => Some CopyClose             (* pool.Close(), :83 *)
  | FLock => Some Lock                  (* pool.l.Lock(), :42 *)
  | FUnlock => Some Unlock              (* pool.l.Unlock(), :51 *)
  | FCheck => Some Compare              (* pool.size < pool.capacity, :43 *)
  | FInc _ => Some Count                (* pool.size++, :48 *)
  | _ => None
  end.
(** Lock and Unlock change the words of the mutex atomically (a Lock that has to wait does so too); every other access is a plain one.
    A copy of the Pool reads both fields.  Channels synchronise by themselves, and the other fields are written by Init only. *)
Inductive floc := FSize | FMutex.
Inductive fkind := FRead | FWrite | FAtomic.
Definition f_conflict (x y : fkind) : bool :=
  match x, y with FRead, FRead | FAtomic, FAtomic => false | _, _ => true end.
Definition touches (s : stmt) (l : floc) : option fkind :=
  match s, l with
  | CopyCreate, _ | CopyPut, _ | CopyClose, _ => Some FRead
  | Lock, FMutex | Unlock, FMutex => Some FAtomic
  | Compare, FSize => Some FRead
  | Count, FSize => Some FWrite
  | _, _ => None
  end.
(** some execution of a pool of capacity n reaches a point where two goroutines are about to do [a] and [b], which touch [l], not both
    reading it and not both atomically *)
Definition pool_race (n : Z) (a b : stmt) (l : floc) : Prop :=
  exists s p evs i j pi pj x y, fexec s (fpool_init n) = Some (p, evs) /\ i <> j /\
    f_th p !! i = Some pi /\ f_th p !! j = Some pj /\ stmt_of pi = Some a /\ stmt_of pj = Some b /\
    touches a l = Some x /\ touches b l = Some y /\ f_conflict x y = true.

(** ** C185: splitting the steps changes nothing that can be seen

    Every execution of the system that does each access as a step of its own gives the events of an execution of the system of
    PoolModel.v, at which C72-C76, C106 and C138-C141 are stated: the same actions without the copies and the counting, ending with
    the same queue, mutex and goroutines.  And the other way round. *)
Theorem C185_refines n s p evs : fexec s (fpool_init n) = Some (p, evs) ->
  exists s' q, sublist s' s /\ pexec s' (pool_init n) = Some (q, evs) /\
    p_chan q = f_chan p /\ p_lock q = f_lock p /\ p_next q = f_next p /\ p_th q = omap f_coarse (f_th p) /\
    ((exists i c, f_th p !! i = Some (FInc c)) /\ p_size q = S (f_size p) \/ p_size q = f_size p).
Proof.
  intros E. destruct (proj_exec _ _ _ _ _ (finv_init n) (proj_init n) E) as (s' & q & Ex & Hsub & [A B C D Et Hi Hs]).
  exists s', q. repeat (split; [assumption|]).
  destruct (map_to_list (filter (fun kv : nat * fpc => is_inc (snd kv) = true) (f_th p))) as [|[i pc] r] eqn:El.
  - right. apply Hs. intros i c Ei. apply map_to_list_empty_iff in El. assert (X : filter (fun kv : nat * fpc => is_inc (snd kv) = true) (f_th p) !! i = Some (FInc c)) by (apply map_filter_lookup_Some; split; [exact Ei|reflexivity]).
    rewrite El in X. rewrite lookup_empty in X. discriminate.
  - left. assert (X : (i, pc) ∈ map_to_list (filter (fun kv : nat * fpc => is_inc (snd kv) = true) (f_th p))) by (rewrite El; left).
    apply elem_of_map_to_list in X. apply map_filter_lookup_Some in X as [Ei I]. destruct pc; try discriminate. split; [eauto|]. eapply Hi. exact Ei.
Qed.
Theorem C185_refined n s q evs : pexec s (pool_init n) = Some (q, evs) ->
  exists s' p, fexec s' (fpool_init n) = Some (p, evs) /\ f_chan p = p_chan q /\ f_lock p = p_lock q /\ f_size p = p_size q /\
    f_next p = p_next q /\ forall i, f_th p !! i ≫= f_coarse = p_th q !! i.
Proof.
  intros E. destruct (lift_exec _ _ _ _ E) as [s' Es]. exists s', (f_lift q). split.
  - replace (fpool_init n) with (f_lift (pool_init n)); [exact Es|]. unfold f_lift, fpool_init. cbn. f_equal. apply fmap_empty.
  - repeat (split; [reflexivity|]). intros i. rewrite (pj_th _ _ (lift_proj q)), lookup_omap. reflexivity.
Qed.
Example C185_not_vacuous : match fexec [PGet 0; PRun 0; PRun 0; PRun 0; PRun 0; PDialOk 0; PRun 0; PRun 0; PRun 0; PRun 0; PRun 0] (fpool_init 1) with
  | Some (p, evs) => evs = [EGot 0 0] /\ f_size p = 1%nat | None => False end.
Proof. vm_compute. split; reflexivity. Qed.

(** ** C186: the races, exactly

    The pairs, one way round. *)
Definition races (n : Z) (a b : stmt) (l : floc) : Prop :=
  match a, b, l with
  | CopyPut, Count, FSize => n <> 1
  | CopyClose, Count, FSize => True
  | CopyCreate, Lock, FMutex => True
  | CopyPut, Lock, FMutex | CopyPut, Unlock, FMutex => True
  | CopyClose, Lock, FMutex | CopyClose, Unlock, FMutex => True
  | _, _, _ => False
  end.

Lemma pool_race_sym n a b l : pool_race n a b l -> pool_race n b a l.
Proof.
  intros (s & p & evs & i & j & pi & pj & x & y & E & N & Ei & Ej & Sa & Sb & Ta & Tb & Cf).
  exists s, p, evs, j, i, pj, pi, y, x. repeat (split; [first [assumption | congruence]|]). destruct x, y; exact Cf.
Qed.

Lemma race_go n a b l s i j : match fexec s (fpool_init n) with
  | Some (p, _) => (if decide (i = j) then false else true) = true /\ match f_th p !! i, f_th p !! j with
                   | Some pi, Some pj => stmt_of pi = Some a /\ stmt_of pj = Some b
                   | _, _ => False end
  | None => False end ->
  match touches a l, touches b l with Some x, Some y => f_conflict x y | _, _ => false end = true -> pool_race n a b l.
Proof.
  intros H C. destruct (fexec s (fpool_init n)) as [[p evs]|] eqn:E; [|destruct H]. destruct H as [N H]. destruct (decide (i = j)) as [|Nj]; [discriminate|].
  destruct (f_th p !! i) as [pi|] eqn:Ei; [|destruct H]. destruct (f_th p !! j) as [pj|] eqn:Ej; [|destruct H]. destruct H as [Sa Sb].
  destruct (touches a l) as [x|] eqn:Ta; [|discriminate]. destruct (touches b l) as [y|] eqn:Tb; [|discriminate].
  exists s, p, evs, i, j, pi, pj, x, y. repeat (split; [first [assumption|reflexivity]|]). exact C.
Qed.

Lemma cap_pos n : exists m, f_cap (fpool_init n) = S m.
Proof. cbn. destruct (Z.leb_spec n 0); [eauto|]. exists (Nat.pred (Z.to_nat n)). lia. Qed.
Lemma cap_two n : n <> 1 -> exists m, f_cap (fpool_init n) = S (S m).
Proof. intros N. cbn. destruct (Z.leb_spec n 0); [eauto|]. exists (Nat.pred (Nat.pred (Z.to_nat n))). lia. Qed.

Definition to_check (i : nat) : list pact := [PGet i; PRun i; PRun i].
Definition to_count (i : nat) : list pact := to_check i ++ [PRun i; PRun i; PDialOk i].
Definition to_got (i : nat) : list pact := to_count i ++ [PRun i; PRun i; PRun i; PRun i].
Lemma races_happen n a b l : races n a b l -> pool_race n a b l.
Proof.
  intros R.
  assert (G : forall s i j m, f_cap (fpool_init n) = m -> match fexec s (FPool m 0 [] false 0 ∅) with
    | Some (p, _) => (if decide (i = j) then false else true) = true /\ match f_th p !! i, f_th p !! j with
                   | Some pi, Some pj => stmt_of pi = Some a /\ stmt_of pj = Some b
                   | _, _ => False end
    | None => False end ->
    match touches a l, touches b l with Some x, Some y => f_conflict x y | _, _ => false end = true -> pool_race n a b l).
  { intros s i j m Ec H C. eapply race_go; [|exact C]. unfold fpool_init in *. cbn in Ec. rewrite Ec. exact H. }
  destruct (cap_pos n) as [m Em]. destruct a, b, l; cbn in R; try (destruct R; fail).
  - eapply (G [PGet 1; PRun 1; PGet 0; PRun 0; PRun 0; PRun 0] 0%nat 1%nat); [exact Em|vm_compute; repeat split|reflexivity].
  - eapply (G (to_got 0 ++ [PGet 1; PRun 1]) 0%nat 1%nat); [exact Em|vm_compute; repeat split|reflexivity].
  - destruct m as [|m].
    + eapply (G (to_got 0 ++ to_check 1 ++ [PRun 1]) 0%nat 1%nat); [exact Em|vm_compute; repeat split|reflexivity].
    + eapply (G (to_got 0 ++ to_count 1 ++ [PRun 1; PRun 1]) 0%nat 1%nat); [exact Em|vm_compute; repeat split|reflexivity].
  - destruct (cap_two n R) as [k Ek]. eapply (G (to_got 0 ++ to_count 1) 0%nat 1%nat); [exact Ek|vm_compute; repeat split|reflexivity].
  - eapply (G [PClose 0; PGet 1; PRun 1] 0%nat 1%nat); [exact Em|vm_compute; repeat split|reflexivity].
  - eapply (G (PClose 0 :: to_count 1 ++ [PRun 1; PRun 1]) 0%nat 1%nat); [exact Em|vm_compute; repeat split|reflexivity].
  - eapply (G (PClose 0 :: to_count 1) 0%nat 1%nat); [exact Em|vm_compute; repeat split|reflexivity].
Qed.

(** The copies race with the other accesses, each in the ways listed, and nothing else races: the count that decides whether to dial
    is compared and changed inside the mutex only, and the copied count and the copied mutex are not used. *)
Theorem C186_exact n a b l : pool_race n a b l <-> races n a b l \/ races n b a l.
Proof.
  split.
  2:{ intros [R|R]; [|apply pool_race_sym]; apply races_happen; exact R. }
  intros (s & p & evs & i & j & pi & pj & x & y & E & N & Ei & Ej & Sa & Sb & Ta & Tb & Cf).
  pose proof (finv_exec _ _ _ _ (finv_init n) E) as HI.
  destruct (fcount_exec _ _ _ _ (finv_init n) (fcount_init n) E) as [HC Ecap].
  assert (X : f_crit pi = true -> f_crit pj = true -> False) by (intros A B; apply N; eapply (fi_one _ HI); eassumption).
  assert (P : forall i j pi c, f_th p !! i = Some pi -> stmt_of pi = Some CopyPut -> f_th p !! j = Some (FInc c) -> n <> 1).
  { clear -HI HC Ecap. intros i j pi c Ei Si Ej ->. cbn in Ecap. pose proof (fc_room _ HC _ _ Ej eq_refl) as R. assert (Z : f_size p = 0%nat) by lia.
    destruct pi; try discriminate; [pose proof (fc_early _ HC _ _ Z Ei); discriminate|]. destruct (fc_fail _ HC _ Z Ei) as [_ Hn]. pose proof (Hn _ _ Ej). discriminate. }
  destruct a, b, l; cbn in Ta, Tb; try discriminate; injection Ta as <-; injection Tb as <-; try discriminate; cbn; try (left; exact I); try (right; exact I).
  all: destruct pi; try discriminate; destruct pj; try discriminate; try (destruct (X eq_refl eq_refl)); first [left; eapply P; [exact Ei|reflexivity|exact Ej] | right; eapply P; [exact Ej|reflexivity|exact Ei]].
Qed.
(** With one connection, Put's copy never meets the counting. *)
Example C186_one : ~ pool_race 1 CopyPut Count FSize /\ pool_race 2 CopyPut Count FSize /\ pool_race 1 CopyClose Count FSize.
Proof.
  split; [|split]; rewrite C186_exact; cbn; [intros [H|H]; [apply H; reflexivity|exact H]|left; discriminate|left; exact I].
Qed.
(** The comparison and the counting never meet. *)
Theorem C186_count_guarded n l : ~ pool_race n Compare Count l /\ ~ pool_race n Count Count l.
Proof. split; rewrite C186_exact; destruct l; cbn; intros [H|H]; exact H. Qed.
