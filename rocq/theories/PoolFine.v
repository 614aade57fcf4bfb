From stdpp Require Import gmap.
From Verif Require Import Base PoolModel.

(** * PoolFine: the pool with every access to its fields as a step of its own (redis/pool.go)

    The transition system of PoolModel.v, with

    - [pool.size++] (:48) apart from the return of [create] (:44);
    - the copies of the whole Pool that the value receivers make: [pool.create()] (:44, receiver :62),
      [defer pool.Put(conn)] (:101 and :115, receiver :76; the receiver of a deferred call is copied at the defer
      statement), [pool.Close()] (receiver :83).

    The copies are used for addr, connOpenHandler, connC and connCloseHandler only, none of which changes after Init, so a copy is a
    step that changes nothing here.  A goroutine that calls Get and Put itself makes the copy when it calls Put; it stays at [FGot]
    until then. *)
Inductive fpc :=
| FTry               (* :37 first select *)
| FLock              (* :42 *)
| FCheck             (* :43 *)
| FCopy              (* :44 the copy for create *)
| FDial              (* :44 inside create *)
| FInc (c : nat)     (* :48 *)
| FSend (c : nat)    (* :49 *)
| FUnlock            (* :51 *)
| FWait              (* :54 second select *)
| FGot (c : nat)     (* Get returned c; :101, :115 the copy for the deferred Put *)
| FFail              (* Get returned an error; the same copy; Put(nil) does nothing *)
| FLent (c : nat)    (* the body of ExecCommand, Exec *)
| FPut (c : nat)     (* :78 *)
| FOpen              (* :83 the copy for Close *)
| FRange             (* :84 *)
| FClose (c : nat).  (* :91 *)

Record fpool := FPool { f_cap : nat; f_size : nat; f_chan : list nat; f_lock : bool; f_next : nat; f_th : gmap nat fpc }.
Definition f_set_th (t : gmap nat fpc) (p : fpool) : fpool := FPool (f_cap p) (f_size p) (f_chan p) (f_lock p) (f_next p) t.
Definition f_set_chan (l : list nat) (p : fpool) : fpool := FPool (f_cap p) (f_size p) l (f_lock p) (f_next p) (f_th p).
Definition f_set_lock (b : bool) (p : fpool) : fpool := FPool (f_cap p) (f_size p) (f_chan p) b (f_next p) (f_th p).
(** pool.go:25-34 Init *)
Definition fpool_init (capacity : Z) : fpool :=
  FPool (if capacity <=? 0 then 20 else Z.to_nat capacity) 0 [] false 0 ∅.

Definition f_go (i : nat) (pc : fpc) (p : fpool) : option (fpool * list pevent) := Some (f_set_th (<[i := pc]> (f_th p)) p, []).
Definition f_say (i : nat) (pc : fpc) (e : pevent) (p : fpool) : option (fpool * list pevent) := Some (f_set_th (<[i := pc]> (f_th p)) p, [e]).
Definition f_ret (i : nat) (e : list pevent) (p : fpool) : option (fpool * list pevent) := Some (f_set_th (delete i (f_th p)) p, e).

(** the actions and events of PoolModel.v *)
Definition fstep (a : pact) (p : fpool) : option (fpool * list pevent) :=
  match a with
  | PGet i => match f_th p !! i with None => f_go i FTry p | _ => None end
  | PClose i => match f_th p !! i with None => f_go i FOpen p | _ => None end
  | PRelease i => match f_th p !! i with Some (FLent c) => f_go i (FPut c) p | _ => None end
  | PDialOk i =>
    match f_th p !! i with
    | Some FDial => Some (FPool (f_cap p) (f_size p) (f_chan p) (f_lock p) (S (f_next p)) (<[i := FInc (f_next p)]> (f_th p)), [])
    | _ => None
    end
  | PDialFail i => match f_th p !! i with Some FDial => f_say i FFail (EGetErr i) p | _ => None end
  | PCancel i => match f_th p !! i with Some FWait => f_say i FFail (EGetErr i) p | _ => None end
  | PCloseOk i => match f_th p !! i with Some (FClose _) => f_go i FRange p | _ => None end
  | PCloseErr i => match f_th p !! i with Some (FClose _) => f_ret i [ECloseRet i] p | _ => None end
  | PRun i =>
    match f_th p !! i with
    | Some FTry =>
      match f_chan p with
      | c :: r => f_say i (FGot c) (EGot i c) (f_set_chan r p)
      | [] => f_go i FLock p
      end
    | Some FLock => if f_lock p then None else f_go i FCheck (f_set_lock true p)
    | Some FCheck => if Nat.ltb (f_size p) (f_cap p) then f_go i FCopy p else f_go i FUnlock p
    | Some FCopy => f_go i FDial p
    | Some (FInc c) => Some (FPool (f_cap p) (S (f_size p)) (f_chan p) (f_lock p) (f_next p) (<[i := FSend c]> (f_th p)), [])
    | Some (FSend c) => if Nat.ltb (length (f_chan p)) (f_cap p) then f_go i FUnlock (f_set_chan (f_chan p ++ [c]) p) else None
    | Some FUnlock => f_go i FWait (f_set_lock false p)
    | Some FWait =>
      match f_chan p with
      | c :: r => f_say i (FGot c) (EGot i c) (f_set_chan r p)
      | [] => None
      end
    | Some (FGot c) => f_go i (FLent c) p
    | Some FFail => f_ret i [] p
    | Some (FPut c) => if Nat.ltb (length (f_chan p)) (f_cap p) then f_ret i [EPutDone i] (f_set_chan (f_chan p ++ [c]) p) else None
    | Some FOpen => f_go i FRange p
    | Some FRange =>
      match f_chan p with
      | c :: r => f_go i (FClose c) (f_set_chan r p)
      | [] => None
      end
    | _ => None
    end
  end.
Fixpoint fexec (s : list pact) (p : fpool) : option (fpool * list pevent) :=
  match s with
  | [] => Some (p, [])
  | a :: r => match fstep a p with
              | Some (p', e) => match fexec r p' with Some (p'', e') => Some (p'', e ++ e') | None => None end
              | None => None
              end
  end.

(** ** Mutual exclusion *)
Definition f_crit (pc : fpc) : bool :=
  match pc with FCheck | FCopy | FDial | FInc _ | FSend _ | FUnlock => true | _ => false end.
Record finv (p : fpool) : Prop := FInv {
  fi_lock : forall i pc, f_th p !! i = Some pc -> f_crit pc = true -> f_lock p = true;
  fi_one : forall i j pi pj, f_th p !! i = Some pi -> f_th p !! j = Some pj -> f_crit pi = true -> f_crit pj = true -> i = j }.
Lemma finv_init n : finv (fpool_init n).
Proof. constructor; cbn; intros; rewrite lookup_empty in *; discriminate. Qed.

Lemma finv_upd p p' i pc : finv p -> f_th p' = <[i := pc]> (f_th p) ->
  (f_crit pc = true -> (exists pi, f_th p !! i = Some pi /\ f_crit pi = true) \/ f_lock p = false) ->
  (f_lock p' = f_lock p \/ (f_lock p' = true /\ f_crit pc = true) \/ (f_lock p' = false /\ f_crit pc = false /\ exists pi, f_th p !! i = Some pi /\ f_crit pi = true)) ->
  (f_crit pc = true -> f_lock p' = true) -> finv p'.
Proof.
  intros [H1 H2] Et Hc Hl Hpc. constructor; rewrite Et.
  - intros j q Ej Cj. destruct (decide (j = i)) as [->|N]; [rewrite lookup_insert in Ej; injection Ej as <-; auto|]. rewrite lookup_insert_ne in Ej by congruence.
    destruct Hl as [->|[[-> _]|(_ & _ & pi & Ei & Ci)]]; [eauto|reflexivity|]. destruct N. eauto.
  - assert (Hx : forall j q, j <> i -> f_th p !! j = Some q -> f_crit q = true -> f_crit pc = true -> False).
    { intros j q N Ej Cj Cp. destruct (Hc Cp) as [(pi & Ei & Ci)|Hf]; [apply N; eauto|]. rewrite (H1 _ _ Ej Cj) in Hf. discriminate. }
    intros j k q r Ej Ek Cj Ck. destruct (decide (j = i)) as [->|Nj], (decide (k = i)) as [->|Nk]; [reflexivity| | |]; rewrite ?lookup_insert, ?lookup_insert_ne in Ej by congruence; rewrite ?lookup_insert, ?lookup_insert_ne in Ek by congruence.
    + injection Ej as <-. destruct (Hx _ _ Nk Ek Ck Cj).
    + injection Ek as <-. destruct (Hx _ _ Nj Ej Cj Ck).
    + eauto.
Qed.
Lemma finv_del p p' i : finv p -> f_th p' = delete i (f_th p) -> f_lock p' = f_lock p -> finv p'.
Proof.
  intros [H1 H2] Et El. constructor; rewrite Et.
  - intros j q Ej Cj. rewrite El. apply lookup_delete_Some in Ej as [_ Ej]. eauto.
  - intros j k q r Ej Ek. apply lookup_delete_Some in Ej as [_ Ej]. apply lookup_delete_Some in Ek as [_ Ek]. eauto.
Qed.
Lemma finv_step a p p' e : finv p -> fstep a p = Some (p', e) -> finv p'.
Proof.
  intros H E. pose proof (fi_lock _ H) as HL.
  assert (K : forall i pi pc q, f_th p !! i = Some pi -> f_crit pi = true -> f_th q = <[i := pc]> (f_th p) -> f_lock q = (if f_crit pc then f_lock p else false) \/ f_lock q = f_lock p -> finv q).
  { intros i pi pc q Ei Ci Eq El. pose proof (HL _ _ Ei Ci) as Hl. eapply finv_upd; [exact H|exact Eq| | |].
    - intros _. left. exists pi. split; assumption.
    - destruct (f_crit pc) eqn:Cp; [left; destruct El; assumption|]. destruct El as [El|El]; [|left; exact El]. right. right. split; [exact El|]. split; [reflexivity|]. exists pi. split; assumption.
    - intros Cp. rewrite Cp in El. destruct El; congruence. }
  assert (N : forall i pc q, f_crit pc = false -> f_th q = <[i := pc]> (f_th p) -> f_lock q = f_lock p -> finv q).
  { intros i pc q Cp Eq El. eapply finv_upd; [exact H|exact Eq| | |]; rewrite ?Cp; try discriminate. left. exact El. }
  destruct a as [i|i|i|i|i|i|i|i|i]; cbn in E; destruct (f_th p !! i) as [[]|] eqn:Ei; try discriminate;
    repeat match type of E with
    | match f_chan p with _ => _ end = _ => destruct (f_chan p)
    | (if f_lock p then _ else _) = _ => destruct (f_lock p) eqn:El
    | (if ?b then _ else _) = _ => destruct b
    end; try discriminate; injection E as <- <-;
    first
      [ eapply finv_del; [exact H|reflexivity|reflexivity]
      | eapply K; [exact Ei|reflexivity|reflexivity|cbn; first [left; reflexivity | right; reflexivity]]
      | eapply N; [|reflexivity|reflexivity]; reflexivity
      | idtac ].
  eapply finv_upd; [exact H|reflexivity| | |]; cbn; intros; auto.
Qed.
Lemma finv_exec s : forall p p' e, finv p -> fexec s p = Some (p', e) -> finv p'.
Proof.
  induction s as [|a r IH]; intros p p' e H E; cbn in E; [injection E as <- <-; exact H|].
  destruct (fstep a p) as [[p1 e1]|] eqn:E1; [|discriminate]. destruct (fexec r p1) as [[p2 e2]|] eqn:E2; [|discriminate]. injection E as <- <-.
  eapply IH; [|exact E2]. eapply finv_step; eassumption.
Qed.

(** ** The two systems have the same executions *)
Definition f_coarse (pc : fpc) : option ppc :=
  match pc with
  | FTry => Some GTry | FLock => Some GLock | FCheck => Some GCheck | FCopy | FDial => Some GDial
  | FInc c | FSend c => Some (GSend c) | FUnlock => Some GUnlock | FWait => Some GWait
  | FGot c | FLent c => Some (Lent c) | FFail => None | FPut c => Some (PSend c)
  | FOpen | FRange => Some CRange | FClose c => Some (CClose c)
  end.
Record proj (p : fpool) (q : pool) : Prop := Proj {
  pj_cap : p_cap q = f_cap p; pj_chan : p_chan q = f_chan p; pj_lock : p_lock q = f_lock p; pj_next : p_next q = f_next p;
  pj_th : p_th q = omap f_coarse (f_th p);
  pj_inc : forall i c, f_th p !! i = Some (FInc c) -> p_size q = S (f_size p);
  pj_size : (forall i c, f_th p !! i <> Some (FInc c)) -> p_size q = f_size p }.
Definition is_inc (pc : fpc) : bool := match pc with FInc _ => true | _ => false end.

Lemma proj_upd p q p' q' i po pn : finv p -> proj p q -> f_th p !! i = po ->
  match po with Some x => is_inc x | None => false end = false ->
  f_th p' = <[i := pn]> (f_th p) -> is_inc pn = false -> p_th q' = omap f_coarse (f_th p') ->
  f_size p' = f_size p -> p_size q' = p_size q ->
  p_cap q' = f_cap p' -> p_chan q' = f_chan p' -> p_lock q' = f_lock p' -> p_next q' = f_next p' -> proj p' q'.
Proof.
  intros HI H Ei No Et Nn Eth Es Eq A B C D. constructor; try assumption; rewrite Et, Es, Eq.
  - intros j c Ej. destruct (decide (j = i)) as [->|Nj]; [rewrite lookup_insert in Ej; injection Ej as ->; discriminate|]. rewrite lookup_insert_ne in Ej by congruence. eapply pj_inc; eassumption.
  - intros Hn. apply (pj_size _ _ H). intros j c Ej. destruct (decide (j = i)) as [->|Nj]; [rewrite Ej in Ei; rewrite <- Ei in No; discriminate|]. apply (Hn j c). rewrite lookup_insert_ne by congruence. exact Ej.
Qed.
Lemma proj_rm p q p' q' i po : finv p -> proj p q -> f_th p !! i = po ->
  match po with Some x => is_inc x | None => false end = false ->
  f_th p' = delete i (f_th p) -> p_th q' = omap f_coarse (f_th p') ->
  f_size p' = f_size p -> p_size q' = p_size q ->
  p_cap q' = f_cap p' -> p_chan q' = f_chan p' -> p_lock q' = f_lock p' -> p_next q' = f_next p' -> proj p' q'.
Proof.
  intros HI H Ei No Et Eth Es Eq A B C D. constructor; try assumption; rewrite Et, Es, Eq.
  - intros j c Ej. apply lookup_delete_Some in Ej as [_ Ej]. eapply pj_inc; eassumption.
  - intros Hn. apply (pj_size _ _ H). intros j c Ej. apply (Hn j c). destruct (decide (j = i)) as [->|Nj]; [rewrite Ej in Ei; rewrite <- Ei in No; discriminate|]. rewrite lookup_delete_ne by congruence. exact Ej.
Qed.
Lemma coarse_ins i pc pc' (m : gmap nat fpc) : f_coarse pc = Some pc' -> <[i := pc']> (omap f_coarse m) = omap f_coarse (<[i := pc]> m).
Proof. intros E. symmetry. apply omap_insert_Some. exact E. Qed.
Lemma coarse_del i (m : gmap nat fpc) : delete i (omap f_coarse m) = omap f_coarse (delete i m).
Proof. symmetry. apply omap_delete. Qed.
Lemma coarse_fail i (m : gmap nat fpc) : delete i (omap f_coarse m) = omap f_coarse (<[i := FFail]> m).
Proof. symmetry. apply omap_insert_None. reflexivity. Qed.
Lemma coarse_same i pc pc' (m : gmap nat fpc) : m !! i = Some pc -> f_coarse pc' = f_coarse pc -> f_coarse pc <> None -> omap f_coarse m = omap f_coarse (<[i := pc']> m).
Proof.
  intros Ei Ec Hn. destruct (f_coarse pc) as [x|] eqn:Ex; [|destruct (Hn eq_refl)].
  rewrite <- (coarse_ins i pc' x m Ec). symmetry. apply insert_id. rewrite lookup_omap, Ei. exact Ex.
Qed.

Lemma f_no_inc p i pi : finv p -> f_th p !! i = Some pi -> f_crit pi = true -> is_inc pi = false -> forall j c, f_th p !! j <> Some (FInc c).
Proof. intros H Ei Ci Ni j c Ej. assert (i = j) as -> by (eapply (fi_one _ H); [exact Ei|exact Ej|exact Ci|reflexivity]). rewrite Ei in Ej. injection Ej as ->. discriminate. Qed.

Lemma proj_step a p p' e q : finv p -> proj p q -> fstep a p = Some (p', e) ->
  (e = [] /\ proj p' q) \/ exists q', pstep a q = Some (q', e) /\ proj p' q'.
Proof.
  intros HI HP E. pose proof HP as [A B C D Et Hi Hs].
  assert (Lk : forall i, p_th q !! i = f_th p !! i ≫= f_coarse) by (intros; rewrite Et; apply lookup_omap).
  destruct a as [i|i|i|i|i|i|i|i|i]; pose proof (Lk i) as Li; cbn -[Nat.ltb] in E; destruct (f_th p !! i) as [[]|] eqn:Ei; cbn in Li; try discriminate;
    repeat match type of E with
    | match f_chan p with _ => _ end = _ => destruct (f_chan p) as [|c0 r0] eqn:Ech
    | (if f_lock p then _ else _) = _ => destruct (f_lock p) eqn:El
    | (if ?b then _ else _) = _ => destruct b eqn:Eb
    end; try discriminate; injection E as <- <-.
  all: try (right; eexists; split;
    [ unfold pstep; rewrite Li; rewrite ?B, ?C, ?A, ?(Hs (f_no_inc _ _ _ HI Ei eq_refl eq_refl)); try rewrite Ech; try rewrite El; try rewrite Eb; reflexivity
    | first [ eapply proj_upd; [exact HI|exact HP|exact Ei|reflexivity|reflexivity|reflexivity|..]; cbn; try rewrite Et; first [reflexivity | assumption | apply coarse_ins; reflexivity | apply coarse_fail | congruence]
            | eapply proj_rm; [exact HI|exact HP|exact Ei|reflexivity|reflexivity|..]; cbn; try rewrite Et; first [reflexivity | assumption | apply coarse_del | congruence] ] ]; fail).
  all: try (left; split; [reflexivity|]; first [ eapply proj_upd; [exact HI|exact HP|exact Ei|reflexivity|reflexivity|reflexivity|..]; cbn; try rewrite Et; first [reflexivity | assumption | eapply coarse_same; [exact Ei|reflexivity|discriminate] ]
            | eapply proj_rm; [exact HI|exact HP|exact Ei|reflexivity|reflexivity|..]; cbn; try rewrite Et; first [reflexivity | assumption | idtac] ]; fail).
  - (* FInc: the coarse system has counted already *)
    left. split; [reflexivity|]. constructor; cbn; try assumption.
    + rewrite Et. eapply coarse_same; [exact Ei|reflexivity|discriminate].
    + intros j d Ej. destruct (decide (j = i)) as [->|N]; [rewrite lookup_insert in Ej; discriminate|]. rewrite lookup_insert_ne in Ej by congruence.
      destruct N. eapply (fi_one _ HI); [exact Ej|exact Ei|reflexivity|reflexivity].
    + intros _. eapply Hi. exact Ei.
  - (* FFail *)
    left. split; [reflexivity|]. eapply proj_rm; [exact HI|exact HP|exact Ei|reflexivity|reflexivity|..]; cbn; try assumption; try reflexivity.
    rewrite Et. apply map_eq. intros j. rewrite !lookup_omap. destruct (decide (j = i)) as [->|N]; [rewrite Ei, lookup_delete; reflexivity|rewrite lookup_delete_ne by congruence; reflexivity].
  - (* FDial *)
    right. eexists. split; [unfold pstep; rewrite Li; reflexivity|]. constructor; cbn; try assumption; try congruence.
    + rewrite D, Et. apply coarse_ins. reflexivity.
    + intros j d Ej. f_equal. apply Hs. eapply f_no_inc; [exact HI|exact Ei|reflexivity|reflexivity].
    + intros Hn. destruct (Hn i (f_next p)). apply lookup_insert.
Qed.

Lemma pexec_app s t p p1 e1 p2 e2 : pexec s p = Some (p1, e1) -> pexec t p1 = Some (p2, e2) -> pexec (s ++ t) p = Some (p2, e1 ++ e2).
Proof.
  revert p e1. induction s as [|a r IH]; intros p e1 E1 E2; cbn in *; [injection E1 as <- <-; exact E2|].
  destruct (pstep a p) as [[p3 e3]|]; [|discriminate]. destruct (pexec r p3) as [[p4 e4]|] eqn:E4; [|discriminate]. injection E1 as -> <-.
  rewrite (IH _ _ E4 E2). rewrite app_assoc. reflexivity.
Qed.
Lemma fexec_app s t p p1 e1 p2 e2 : fexec s p = Some (p1, e1) -> fexec t p1 = Some (p2, e2) -> fexec (s ++ t) p = Some (p2, e1 ++ e2).
Proof.
  revert p e1. induction s as [|a r IH]; intros p e1 E1 E2; cbn in *; [injection E1 as <- <-; exact E2|].
  destruct (fstep a p) as [[p3 e3]|]; [|discriminate]. destruct (fexec r p3) as [[p4 e4]|] eqn:E4; [|discriminate]. injection E1 as -> <-.
  rewrite (IH _ _ E4 E2). rewrite app_assoc. reflexivity.
Qed.
Lemma proj_exec s : forall p p' e q, finv p -> proj p q -> fexec s p = Some (p', e) ->
  exists s' q', pexec s' q = Some (q', e) /\ sublist s' s /\ proj p' q'.
Proof.
  induction s as [|a r IH]; intros p p' e q HI HP E; cbn in E.
  - injection E as <- <-. exists [], q. split; [reflexivity|]. split; [constructor|exact HP].
  - destruct (fstep a p) as [[p1 e1]|] eqn:E1; [|discriminate]. destruct (fexec r p1) as [[p2 e2]|] eqn:E2; [|discriminate]. injection E as <- <-.
    pose proof (finv_step _ _ _ _ HI E1) as HI1.
    destruct (proj_step _ _ _ _ _ HI HP E1) as [[-> HP1]|(q1 & Eq & HP1)]; destruct (IH _ _ _ _ HI1 HP1 E2) as (s' & q' & Ex & Hsub & HP').
    + exists s', q'. split; [exact Ex|]. split; [constructor; exact Hsub|exact HP'].
    + exists (a :: s'), q'. split; [cbn; rewrite Eq, Ex; reflexivity|]. split; [constructor; exact Hsub|exact HP'].
Qed.
Lemma proj_init n : proj (fpool_init n) (pool_init n).
Proof. constructor; try reflexivity. - symmetry. apply omap_empty. - intros i c E. cbn in E. rewrite lookup_empty in E. discriminate. Qed.

(** the other way: no copy outstanding *)
Definition f_lift_pc (pc : ppc) : fpc :=
  match pc with
  | GTry => FTry | GLock => FLock | GCheck => FCheck | GDial => FDial | GSend c => FSend c | GUnlock => FUnlock | GWait => FWait
  | Lent c => FLent c | PSend c => FPut c | CRange => FRange | CClose c => FClose c
  end.
Definition f_lift (q : pool) : fpool := FPool (p_cap q) (p_size q) (p_chan q) (p_lock q) (p_next q) (f_lift_pc <$> p_th q).
Lemma lift_proj q : proj (f_lift q) q.
Proof.
  constructor; cbn; try reflexivity.
  - apply map_eq. intros i. rewrite lookup_omap, lookup_fmap. destruct (p_th q !! i) as [[]|]; reflexivity.
  - intros i c E. rewrite lookup_fmap in E. destruct (p_th q !! i) as [[]|]; discriminate.
Qed.
Definition f_expand (a : pact) (q : pool) : list pact :=
  match a with
  | PDialOk i | PDialFail i | PCancel i | PClose i => [a; PRun i]
  | PRun i =>
    match p_th q !! i with
    | Some GTry | Some GWait => match p_chan q with [] => [a] | _ => [a; PRun i] end
    | Some GCheck => if Nat.ltb (p_size q) (p_cap q) then [a; PRun i] else [a]
    | _ => [a]
    end
  | _ => [a]
  end.
Lemma lift_step a q q' e : pstep a q = Some (q', e) -> fexec (f_expand a q) (f_lift q) = Some (f_lift q', e).
Proof.
  intros E.
  assert (L : forall i, f_th (f_lift q) !! i = f_lift_pc <$> p_th q !! i) by (intros; apply lookup_fmap).
  assert (I : forall i x y (m : gmap nat ppc), f_lift_pc y = x -> <[i := x]> (f_lift_pc <$> m) = f_lift_pc <$> <[i := y]> m) by (intros i x y m <-; symmetry; apply fmap_insert).
  destruct a as [i|i|i|i|i|i|i|i|i]; pose proof (L i) as Li; unfold pstep, go, ret in E; cbn [f_expand]; destruct (p_th q !! i) as [[]|] eqn:Ei; cbn -[f_lift lookup] in Li; try discriminate;
    repeat match type of E with
    | match p_chan q with _ => _ end = _ => destruct (p_chan q) as [|c0 r0] eqn:Ech
    | (if p_lock q then _ else _) = _ => destruct (p_lock q) eqn:El
    | (if ?b then _ else _) = _ => destruct b eqn:Eb
    end; try discriminate; injection E as <- <-;
    cbn [fexec fstep]; rewrite Li; unfold f_go, f_say, f_ret, f_lift; cbn -[Nat.ltb insert delete lookup]; rewrite ?El, ?Eb, ?Ech; cbn -[Nat.ltb insert delete lookup];
    rewrite ?lookup_insert; cbn -[Nat.ltb insert delete lookup]; rewrite ?insert_insert;
    rewrite ?fmap_delete, ?delete_insert_delete, ?fmap_insert; try reflexivity.
Qed.
Lemma lift_exec s : forall q q' e, pexec s q = Some (q', e) -> exists s', fexec s' (f_lift q) = Some (f_lift q', e).
Proof.
  induction s as [|a r IH]; intros q q' e E; cbn in E; [injection E as <- <-; exists []; reflexivity|].
  destruct (pstep a q) as [[q1 e1]|] eqn:E1; [|discriminate]. destruct (pexec r q1) as [[q2 e2]|] eqn:E2; [|discriminate]. injection E as <- <-.
  destruct (IH _ _ _ E2) as [s' Es]. exists (f_expand a q ++ s'). eapply fexec_app; [apply lift_step; exact E1|exact Es].
Qed.

(** ** Before the first connection is counted

    Nobody has got one, and a failed Get leaves the mutex locked with nobody inside it. *)
Definition f_early (pc : fpc) : bool :=
  match pc with FTry | FLock | FCheck | FCopy | FDial | FInc _ | FFail | FOpen | FRange => true | _ => false end.
Definition f_stuck (p : fpool) : Prop := f_lock p = true /\ forall i pc, f_th p !! i = Some pc -> f_crit pc = false.
Definition f_room (pc : fpc) : bool := match pc with FCopy | FDial | FInc _ => true | _ => false end.
Record fcount (p : fpool) : Prop := FCount {
  fc_cap : (1 <= f_cap p)%nat;
  fc_room : forall i pc, f_th p !! i = Some pc -> f_room pc = true -> (f_size p < f_cap p)%nat;
  fc_chan : f_size p = 0%nat -> f_chan p = [];
  fc_early : forall i pc, f_size p = 0%nat -> f_th p !! i = Some pc -> f_early pc = true;
  fc_fail : forall i, f_size p = 0%nat -> f_th p !! i = Some FFail -> f_stuck p }.
Lemma fcount_init n : fcount (fpool_init n).
Proof.
  constructor; cbn; try (intros; rewrite lookup_empty in *; discriminate).
  - destruct (Z.leb_spec n 0); [lia|]. lia.
  - reflexivity.
Qed.
Lemma fcount_upd p p' i pc : fcount p -> f_cap p' = f_cap p -> f_size p' = f_size p -> f_th p' = <[i := pc]> (f_th p) ->
  (f_room pc = true -> (f_size p < f_cap p)%nat) ->
  (f_size p = 0%nat -> f_chan p' = [] /\ f_early pc = true /\ (pc = FFail -> f_stuck p') /\ (forall j, f_th p !! j = Some FFail -> f_stuck p -> f_stuck p')) ->
  fcount p'.
Proof.
  intros [A B C D E] Ec Es Et Hr Hz. constructor; rewrite ?Ec, ?Es, ?Et.
  - exact A.
  - intros j q Ej R. destruct (decide (j = i)) as [->|N]; [rewrite lookup_insert in Ej; injection Ej as <-; auto|]. rewrite lookup_insert_ne in Ej by congruence. eauto.
  - intros Z. apply Hz. exact Z.
  - intros j q Z Ej. destruct (decide (j = i)) as [->|N]; [rewrite lookup_insert in Ej; injection Ej as <-; apply Hz; exact Z|]. rewrite lookup_insert_ne in Ej by congruence. eauto.
  - intros j Z Ej. destruct (decide (j = i)) as [->|N]; [rewrite lookup_insert in Ej; injection Ej as Ej; apply (Hz Z); exact Ej|]. rewrite lookup_insert_ne in Ej by congruence.
    destruct (Hz Z) as (_ & _ & _ & Hk). eapply Hk; [exact Ej|]. eapply E; eassumption.
Qed.
Lemma fcount_del p p' i : fcount p -> f_cap p' = f_cap p -> f_size p' = f_size p -> f_th p' = delete i (f_th p) -> f_lock p' = f_lock p ->
  (f_size p = 0%nat -> f_chan p' = []) -> fcount p'.
Proof.
  intros [A B C D E] Ec Es Et El Hz. constructor; rewrite ?Ec, ?Es, ?Et; auto.
  - intros j q Ej. apply lookup_delete_Some in Ej as [_ Ej]. eauto.
  - intros j q Z Ej. apply lookup_delete_Some in Ej as [_ Ej]. eauto.
  - intros j Z Ej. apply lookup_delete_Some in Ej as [_ Ej]. destruct (E _ Z Ej) as [X Y]. split; [congruence|]. intros k q. rewrite Et. intros Ek. apply lookup_delete_Some in Ek as [_ Ek]. eauto.
Qed.
Lemma stuck_upd p p' i pc : f_stuck p -> f_th p' = <[i := pc]> (f_th p) -> f_lock p' = f_lock p -> f_crit pc = false -> f_stuck p'.
Proof.
  intros [A B] Et El C. split; [congruence|]. intros j q. rewrite Et. intros Ej. destruct (decide (j = i)) as [->|N]; [rewrite lookup_insert in Ej; injection Ej as <-; exact C|].
  rewrite lookup_insert_ne in Ej by congruence. eauto.
Qed.
Lemma fcount_step a p p' e : finv p -> fcount p -> fstep a p = Some (p', e) -> fcount p'.
Proof.
  intros HI H E. pose proof H as [HA HB HC HD HF].
  (* from inside the mutex nobody has failed; outside it a failure stays *)
  assert (K : forall i pi pc q, f_th p !! i = Some pi -> f_crit pi = true -> f_th q = <[i := pc]> (f_th p) -> forall j, f_th p !! j = Some FFail -> f_stuck p -> f_stuck q).
  { intros i pi pc q Ei Ci _ j _ [_ Hn]. rewrite (Hn _ _ Ei) in Ci. discriminate. }
  destruct a as [i|i|i|i|i|i|i|i|i]; cbn -[Nat.ltb] in E; destruct (f_th p !! i) as [[]|] eqn:Ei; try discriminate;
    repeat match type of E with
    | match f_chan p with _ => _ end = _ => destruct (f_chan p) eqn:Ech
    | (if f_lock p then _ else _) = _ => destruct (f_lock p) eqn:El
    | (if ?b then _ else _) = _ => destruct b eqn:Eb
    end; try discriminate; injection E as <- <-;
    try (exfalso; specialize (HD _ _ ltac:(eassumption) Ei); discriminate).
  all: try (eapply fcount_del; [exact H|reflexivity|reflexivity|reflexivity|reflexivity|]; cbn; intros Z; first [apply HC; exact Z | specialize (HD _ _ Z Ei); discriminate]; fail).
  all: try (eapply fcount_upd; [exact H|reflexivity|reflexivity|reflexivity| |];
    [ cbn; first [discriminate | intros _; first [apply Nat.ltb_lt; exact Eb | eapply HB; [exact Ei|reflexivity]]]
    | intros Z; first
        [ (specialize (HD _ _ Z Ei); discriminate)
        | (specialize (HC Z); discriminate)
        | (split; [cbn; auto|]; split; [reflexivity|]; split; [discriminate|]; intros j Ej Hst; first
          [ eapply K; [exact Ei|reflexivity|reflexivity|exact Ej|exact Hst]
          | eapply stuck_upd; [exact Hst|reflexivity|reflexivity|reflexivity]
          | destruct Hst; congruence ]) ] ]; fail).
  - apply Nat.ltb_ge in Eb. eapply fcount_upd; [exact H|reflexivity|reflexivity|reflexivity|discriminate|]. intros Z. lia.
  - constructor; cbn; try lia; try discriminate. intros j q Ej R. destruct (decide (j = i)) as [->|N]; [rewrite lookup_insert in Ej; injection Ej as <-; discriminate|].
    rewrite lookup_insert_ne in Ej by congruence. destruct N. eapply (fi_one _ HI); [exact Ej|exact Ei| |reflexivity]. destruct q; try discriminate; reflexivity.
  - eapply fcount_upd; [exact H|reflexivity|reflexivity|reflexivity|discriminate|]. intros Z. split; [apply HC; exact Z|]. split; [reflexivity|]. split.
    + intros _. split; [cbn; eapply (fi_lock _ HI); [exact Ei|reflexivity]|]. cbn. intros j q Ej. destruct (decide (j = i)) as [->|N]; [rewrite lookup_insert in Ej; injection Ej as <-; reflexivity|].
      rewrite lookup_insert_ne in Ej by congruence. destruct (f_crit q) eqn:Cq; [|reflexivity]. destruct N. eapply (fi_one _ HI); [exact Ej|exact Ei|exact Cq|reflexivity].
    + intros j Ej Hst. eapply K; [exact Ei|reflexivity|reflexivity|exact Ej|exact Hst].
Qed.
Lemma fcount_exec s : forall p p' e, finv p -> fcount p -> fexec s p = Some (p', e) -> fcount p' /\ f_cap p' = f_cap p.
Proof.
  induction s as [|a r IH]; intros p p' e HI H E; cbn in E; [injection E as <- <-; split; [exact H|reflexivity]|].
  destruct (fstep a p) as [[p1 e1]|] eqn:E1; [|discriminate]. destruct (fexec r p1) as [[p2 e2]|] eqn:E2; [|discriminate]. injection E as <- <-.
  destruct (IH _ _ _ (finv_step _ _ _ _ HI E1) (fcount_step _ _ _ _ HI H E1) E2) as [A ->]. split; [exact A|].
  destruct a as [i|i|i|i|i|i|i|i|i]; cbn -[Nat.ltb] in E1; destruct (f_th p !! i) as [[]|]; try discriminate;
    repeat match type of E1 with
    | match f_chan p with _ => _ end = _ => destruct (f_chan p)
    | (if ?b then _ else _) = _ => destruct b
    end; try discriminate; injection E1 as <- <-; reflexivity.
Qed.
