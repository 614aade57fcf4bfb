(** * Props_List: the list entries (C134-C136) *)
From stdpp Require Import gmap.
From Verif Require Import Base CacheModel ListModel.

(** ** The specification: an entry is a list, and a copy of it is another list *)
Definition deque (o : lop) (m : nat -> list gostr) (x : nat) : list gostr :=
  match o with
  | LTail i v => if (x =? i)%nat then m i ++ [v] else m x
  | LHead i v => if (x =? i)%nat then v :: m i else m x
  | LCopy i j => if (x =? j)%nat then m i else m x
  end.
Definition deques (l : list lop) (m : nat -> list gostr) : nat -> list gostr := foldl (fun m o => deque o m) m l.

Definition heap_ok (h : lheap) : Prop := forall a, is_Some (l_arr h !! a) -> (a < l_next h)%nat.
Definition slice_ok (h : lheap) (s : slice) : Prop := match s_arr s with Some a => exists l, l_arr h !! a = Some l /\ (s_len s <= length l)%nat | None => s_len s = 0%nat end.
(** [h'] keeps the arrays of [h], except [x] *)
Definition keeps (x : option nat) (h h' : lheap) : Prop := forall a, Some a <> x -> is_Some (l_arr h !! a) -> l_arr h' !! a = l_arr h !! a.
Lemma keeps_elems x h h' s : keeps x h h' -> slice_ok h s -> x = None \/ s_arr s <> x -> slice_ok h' s /\ elems h' s = elems h s /\ array h' s = array h s.
Proof.
  intros Hk Hs Hx. unfold slice_ok, elems, array in *. destruct (s_arr s) as [a|]; [|auto]. destruct Hs as (l & Hl & Hn).
  assert (E : l_arr h' !! a = l_arr h !! a) by (apply Hk; [destruct Hx as [->|Hx]; congruence|eauto]). rewrite E. split; [eauto|auto].
Qed.
Lemma alloc_spec l h a h' : alloc l h = (a, h') -> heap_ok h -> a = l_next h /\ l_arr h' !! a = Some l /\ heap_ok h' /\ keeps None h h' /\ l_arr h !! a = None.
Proof.
  intros E Hh. injection E as <- <-. cbn [l_arr l_next]. split; [reflexivity|]. split; [apply lookup_insert|]. split.
  - intros a [y Hy]. cbn [l_arr l_next] in *. destruct (decide (a = l_next h)) as [->|Ha]; [lia|]. rewrite lookup_insert_ne in Hy by congruence. specialize (Hh a ltac:(eauto)). lia.
  - assert (Hn : l_arr h !! l_next h = None) by (destruct (l_arr h !! l_next h) eqn:E; [|reflexivity]; specialize (Hh _ ltac:(rewrite E; eauto)); lia).
    split; [|exact Hn]. intros a _ [y Hy]. cbn [l_arr]. rewrite lookup_insert_ne; [reflexivity|]. congruence.
Qed.
(** the two ways of append *)
Lemma append_spec grow h s xs x h' : append grow h s xs = (x, h') -> heap_ok h -> slice_ok h s ->
  heap_ok h' /\ slice_ok h' x /\ elems h' x = elems h s ++ xs /\
  (((s_len s + length xs <= length (array h s))%nat /\ s_arr x = s_arr s /\ keeps (s_arr s) h h') \/
   ((length (array h s) < s_len s + length xs)%nat /\ (exists a, s_arr x = Some a /\ l_arr h !! a = None) /\ keeps None h h' /\
    ((forall c n, grow c n <= n)%nat -> length (array h' x) = s_len x))).
Proof.
  intros E Hh Hs. unfold append in E. destruct (Nat.leb_spec (s_len s + length xs) (length (array h s))) as [Hc|Hc].
  - unfold slice_ok, elems, array in *. destruct (s_arr s) as [a|] eqn:EA.
    + injection E as <- <-. destruct Hs as (l & Hl & Hn). rewrite Hl in *. cbn [from_option id] in *. cbn [s_arr s_len l_arr l_next].
      assert (Hlen : length (take (s_len s) l ++ xs ++ drop (s_len s + length xs) l) = length l) by (rewrite !app_length, take_length, drop_length; lia).
      split; [|split; [|split]].
      * intros b Hb. cbn [l_arr l_next] in *. destruct (decide (b = a)) as [->|Hb']; [apply Hh; eauto|]. rewrite lookup_insert_ne in Hb by congruence. apply Hh, Hb.
      * eexists. split; [apply lookup_insert|]. rewrite Hlen. exact Hc.
      * rewrite lookup_insert. cbn [from_option id]. rewrite app_assoc. rewrite take_app_alt; [reflexivity|]. rewrite app_length, take_length. lia.
      * left. split; [exact Hc|]. split; [reflexivity|]. intros b Hb _. cbn [l_arr]. rewrite lookup_insert_ne; [reflexivity|congruence].
    + injection E as <- <-. rewrite Hs in *. cbn [length] in Hc. destruct xs; [|cbn in Hc; lia]. rewrite ?EA, ?Hs. repeat split; auto. left. split; [cbn; lia|]. split; [reflexivity|]. intros b _ _. reflexivity.
  - destruct (alloc _ h) as [a h1] eqn:EA. injection E as <- <-. destruct (alloc_spec _ _ _ _ EA Hh) as (-> & Ha & Hh1 & Hk & Hf).
    assert (Hl : (s_len s <= length (array h s))%nat) by (unfold slice_ok, array in *; destruct (s_arr s); [destruct Hs as (l & -> & Hn); exact Hn|rewrite Hs; cbn; lia]).
    split; [exact Hh1|]. unfold slice_ok, elems. unfold array at 1 2 5. cbn [s_arr s_len]. rewrite Ha. cbn [from_option id]. split; [|split].
    + eexists. split; [reflexivity|]. rewrite !app_length, take_length. lia.
    + rewrite app_assoc, take_app_alt; [reflexivity|]. rewrite app_length, take_length. lia.
    + right. split; [exact Hc|]. split; [eauto|]. split; [exact Hk|]. intros Hg. rewrite !app_length, take_length, repeat_length. specialize (Hg (length (array h s)) (s_len s + length xs)%nat). lia.
Qed.
Lemma tail_spec grow h s v x h' : append_tail grow h s v = (x, h') -> heap_ok h -> slice_ok h s ->
  heap_ok h' /\ slice_ok h' x /\ elems h' x = elems h s ++ [v] /\
  ((s_arr x = s_arr s /\ keeps (s_arr s) h h' /\ s_arr s <> None /\ (s_len s < length (array h s))%nat) \/
   ((exists a, s_arr x = Some a /\ l_arr h !! a = None) /\ keeps None h h' /\ ((forall c n, grow c n <= n)%nat -> length (array h' x) = s_len x))).
Proof.
  intros E Hh Hs. destruct (append_spec _ _ _ _ _ _ E Hh Hs) as (H1 & H2 & H3 & H4). split; [exact H1|]. split; [exact H2|]. split; [exact H3|]. cbn [length] in H4.
  destruct H4 as [(H4 & H5 & H6)|(_ & H4 & H5 & H6)]; [left|right; auto]. split; [exact H5|]. split; [exact H6|]. split; [|lia]. intros Hn. unfold array in H4. rewrite Hn in H4. cbn in H4. lia.
Qed.
Lemma head_spec grow h s v x h' : append_head grow h s v = (x, h') -> heap_ok h -> slice_ok h s ->
  heap_ok h' /\ slice_ok h' x /\ elems h' x = v :: elems h s /\ (exists a, s_arr x = Some a /\ l_arr h !! a = None) /\ keeps None h h' /\
  ((forall c n, grow c n <= n)%nat -> length (array h' x) = s_len x).
Proof.
  intros E Hh Hs. unfold append_head in E. destruct (alloc [v] h) as [a h1] eqn:EA. destruct (alloc_spec _ _ _ _ EA Hh) as (Ea & Ha & Hh1 & Hk1 & Hf).
  assert (Hs1 : slice_ok h1 (Slice (Some a) 1)) by (exists [v]; split; [exact Ha|reflexivity]).
  destruct (append_spec _ _ _ _ _ _ E Hh1 Hs1) as (H1 & H2 & H3 & H4). split; [exact H1|]. split; [exact H2|].
  assert (Ee : elems h1 (Slice (Some a) 1) = [v]) by (unfold elems, array; cbn [s_arr s_len]; rewrite Ha; reflexivity).
  split; [rewrite H3, Ee; reflexivity|].
  assert (Hkk : forall o, o = None \/ o = Some a -> keeps o h1 h' -> keeps None h h').
  { intros o Ho Hk b _ Hb. rewrite (Hk b); [apply Hk1; [discriminate|exact Hb]| |rewrite (Hk1 b); [exact Hb|discriminate|exact Hb]]. destruct Ho as [->| ->]; [discriminate|]. intros Hx. injection Hx as ->. rewrite Hf in Hb. destruct Hb. discriminate. }
  destruct H4 as [(H4 & H5 & H6)|(_ & (b & H5 & Hb) & H6 & H7)].
  - split; [exists a; split; [exact H5|exact Hf]|]. cbn [s_arr] in H6. split; [apply (Hkk (Some a)); auto|]. intros _. unfold array in H4 |- *. cbn [s_arr s_len] in H4. rewrite H5. cbn [s_arr].
    rewrite Ha in H4. cbn [from_option id length] in H4. unfold append in E. cbn [s_len] in E. destruct (elems h s) as [|y ys] eqn:EE; [|cbn in H4; lia]. cbn [length Nat.add] in E. unfold array in E. cbn [s_arr] in E. rewrite Ha in E. cbn in E. injection E as <- <-. cbn [s_len l_arr]. rewrite lookup_insert. reflexivity.
  - split; [|split; [apply (Hkk None); auto|exact H7]]. exists b. split; [exact H5|]. destruct (l_arr h !! b) as [l|] eqn:El; [|reflexivity]. rewrite (Hk1 b) in Hb; [congruence|discriminate|rewrite El; eauto].
Qed.

(** ** C134: appending at the head and at the tail *)
Definition apart (s : lstate) : Prop := forall i j a, s_arr (entry s i) = Some a -> s_arr (entry s j) = Some a -> i = j.
Definition lgood (s : lstate) (m : nat -> list gostr) : Prop := heap_ok (ls_heap s) /\ forall i, slice_ok (ls_heap s) (entry s i) /\ shown s i = m i.
Lemma entry_insert h e i x j : entry (LS h (<[i := x]> e)) j = if (j =? i)%nat then x else entry (LS h e) j.
Proof. unfold entry. cbn [ls_ent]. destruct (Nat.eqb_spec j i) as [->|Hj]; [rewrite lookup_insert; reflexivity|rewrite lookup_insert_ne by congruence; reflexivity]. Qed.
Lemma entry_heap h h' e j : entry (LS h e) j = entry (LS h' e) j. Proof. reflexivity. Qed.
(** an append that does not write into an array of another entry *)
Lemma lgood_put s m i x h' l (o : option nat) : lgood s m -> heap_ok h' -> slice_ok h' x -> elems h' x = l -> keeps o (ls_heap s) h' ->
  (o = None \/ forall j, j <> i -> s_arr (entry s j) <> o) -> lgood (LS h' (<[i := x]> (ls_ent s))) (fun j => if (j =? i)%nat then l else m j).
Proof.
  intros [Hh Hm] Hh' Hx El Hk Ho. split; [exact Hh'|]. intros j. unfold shown. rewrite !entry_insert. cbn [ls_heap]. destruct (Nat.eqb_spec j i) as [->|Hj]; [auto|]. destruct (Hm j) as [H1 H2].
  rewrite (entry_heap h' (ls_heap s)). destruct s as [h e]. cbn [ls_heap ls_ent] in *. destruct (keeps_elems o h h' (entry (LS h e) j) Hk H1) as (H3 & H4 & _).
  - destruct Ho as [->|Ho]; [left; reflexivity|right; apply Ho, Hj].
  - split; [exact H3|]. rewrite H4. exact H2.
Qed.
Theorem C134_order grow l i : (forall i j, LCopy i j ∉ l) -> shown (lruns grow l l_start) i = deques l (fun _ => []) i.
Proof.
  intros Hl. enough (H : forall l s m, (forall i j, LCopy i j ∉ l) -> lgood s m -> apart s -> forall i, shown (lruns grow l s) i = deques l m i).
  { apply H; [exact Hl| |intros a b c Ha; discriminate]. split; [intros a [y Hy]; cbn in Hy; rewrite lookup_empty in Hy; discriminate|]. intros j. split; reflexivity. }
  clear l i Hl. induction l as [|o l IH]; intros s m Hl Hg Ha i; [apply Hg|]. cbn [lruns deques foldl]. apply IH; [intros a b H; apply (Hl a b); right; exact H| |].
  - destruct o as [j v|j v|j j']; [| |elim (Hl j j'); left]; cbn [lrun deque].
    + destruct (append_tail grow (ls_heap s) (entry s j) v) as [x h'] eqn:E. destruct (proj2 Hg j) as [Hs Hj]. destruct (tail_spec _ _ _ _ _ _ E (proj1 Hg) Hs) as (H1 & H2 & H3 & H4).
      assert (Ho : exists o, keeps o (ls_heap s) h' /\ (o = None \/ forall j0, j0 <> j -> s_arr (entry s j0) <> o)).
      { destruct H4 as [(H4 & H5 & H6 & _)|(_ & H5 & _)]; [|exists None; auto]. exists (s_arr (entry s j)). split; [exact H5|]. right. intros j0 Hj0 Hx. destruct (s_arr (entry s j)) as [a|] eqn:EA; [|congruence]. apply Hj0. exact (Ha _ _ _ Hx EA). }
      destruct Ho as (o & Hk & Ho). exact (lgood_put s m j x h' _ o Hg H1 H2 ltac:(rewrite H3; unfold shown in Hj; rewrite Hj; reflexivity) Hk Ho).
    + destruct (append_head grow (ls_heap s) (entry s j) v) as [x h'] eqn:E. destruct (proj2 Hg j) as [Hs Hj]. destruct (head_spec _ _ _ _ _ _ E (proj1 Hg) Hs) as (H1 & H2 & H3 & _ & Hk & _).
      exact (lgood_put s m j x h' _ None Hg H1 H2 ltac:(rewrite H3; unfold shown in Hj; rewrite Hj; reflexivity) Hk (or_introl eq_refl)).
  - assert (Hput : forall j x h', (s_arr x = s_arr (entry s j) \/ exists a, s_arr x = Some a /\ l_arr (ls_heap s) !! a = None) -> apart (LS h' (<[j := x]> (ls_ent s)))).
    { intros j x h' Hx. assert (Hno : forall j0 a, j0 <> j -> s_arr x = Some a -> s_arr (entry s j0) = Some a -> False).
      { intros j0 a Hj0 Hxa Hsa. destruct Hx as [Hx|(b & Hb & Hf)]; [apply Hj0, (Ha j0 j a); congruence|]. destruct (proj2 Hg j0) as [Hok _]. unfold slice_ok in Hok. rewrite Hsa in Hok. destruct Hok as (y & Hy & _). congruence. }
      intros a b c. rewrite !entry_insert. rewrite !(entry_heap h' (ls_heap s)). destruct s as [h e]. cbn [ls_heap ls_ent] in *. destruct (Nat.eqb_spec a j) as [->|Hj1]; destruct (Nat.eqb_spec b j) as [->|Hj2]; intros Q1 Q2; [reflexivity|exfalso; eauto|exfalso; eauto|exact (Ha _ _ _ Q1 Q2)]. }
    destruct o as [j v|j v|j j']; [| |elim (Hl j j'); left]; cbn [lrun].
    + destruct (append_tail grow (ls_heap s) (entry s j) v) as [x h'] eqn:E. destruct (proj2 Hg j) as [Hs Hj]. destruct (tail_spec _ _ _ _ _ _ E (proj1 Hg) Hs) as (_ & _ & _ & [(H4 & _)|(H4 & _)]); apply Hput; auto.
    + destruct (append_head grow (ls_heap s) (entry s j) v) as [x h'] eqn:E. destruct (proj2 Hg j) as [Hs Hj]. destruct (head_spec _ _ _ _ _ _ E (proj1 Hg) Hs) as (_ & _ & _ & H4 & _). apply Hput; auto.
Qed.
(** Go doubles small capacities *)
Definition doubling (cap n : nat) : nat := Nat.max n (2 * cap).
Example C134_nonvacuous : shown (lruns doubling [LTail 0 (bs "b"); LHead 1 (bs "z"); LTail 0 (bs "c"); LHead 0 (bs "a"); LTail 0 (bs "d"); LTail 1 (bs "y")] l_start) 0 = [bs "a"; bs "b"; bs "c"; bs "d"].
Proof. vm_compute. reflexivity. Qed.

(** ** C135: copies are independent
    Full statement: the same for all sequences of appends and copies.
    Missing: two entries with a common array with spare capacity write their next tail into the same place. *)
Theorem C135_refuted : exists l, deques l (fun _ => []) 0%nat = [bs "a"; bs "b"; bs "c"; bs "x"] /\ shown (lruns doubling l l_start) 0 = [bs "a"; bs "b"; bs "c"; bs "y"].
Proof. exists [LTail 0 (bs "a"); LTail 0 (bs "b"); LTail 0 (bs "c"); LCopy 0 1; LTail 0 (bs "x"); LTail 1 (bs "y")]. split; vm_compute; reflexivity. Qed.
(** with only heads, or where Go leaves no spare capacity, copies are independent *)
Theorem C135_partial grow l i : (forall i v, LTail i v ∉ l) \/ (forall c n, grow c n <= n)%nat -> shown (lruns grow l l_start) i = deques l (fun _ => []) i.
Proof.
  intros Hl. set (full := fun s => (forall c n, grow c n <= n)%nat -> forall i, length (array (ls_heap s) (entry s i)) = s_len (entry s i)).
  enough (H : forall l s m, (forall i v, LTail i v ∉ l) \/ (forall c n, grow c n <= n)%nat -> lgood s m -> full s -> forall i, shown (lruns grow l s) i = deques l m i).
  { apply H; [exact Hl| |intros _ j; reflexivity]. split; [intros a [y Hy]; cbn in Hy; rewrite lookup_empty in Hy; discriminate|]. intros j. split; reflexivity. }
  clear l i Hl. induction l as [|o l IH]; intros s m Hl Hg Hf i; [apply Hg|]. cbn [lruns deques foldl].
  assert (Hl' : (forall i v, LTail i v ∉ l) \/ (forall c n, grow c n <= n)%nat) by (destruct Hl as [Hl|Hl]; [left; intros a b H; apply (Hl a b); right; exact H|right; exact Hl]).
  assert (Hput : forall j x h' y, heap_ok h' -> slice_ok h' x -> elems h' x = y -> keeps None (ls_heap s) h' -> ((forall c n, grow c n <= n)%nat -> length (array h' x) = s_len x) ->
    lgood (LS h' (<[j := x]> (ls_ent s))) (fun k => if (k =? j)%nat then y else m k) /\ full (LS h' (<[j := x]> (ls_ent s)))).
  { intros j x h' y H1 H2 H3 Hk H4. split; [exact (lgood_put s m j x h' _ None Hg H1 H2 H3 Hk (or_introl eq_refl))|]. intros Hgr k. rewrite entry_insert. cbn [ls_heap]. destruct (Nat.eqb_spec k j) as [->|Hj]; [exact (H4 Hgr)|].
    rewrite (entry_heap h' (ls_heap s)). destruct s as [h e]. cbn [ls_heap ls_ent] in *. destruct (keeps_elems None h h' (entry (LS h e) k) Hk (proj1 (proj2 Hg k)) (or_introl eq_refl)) as (_ & _ & ->). exact (Hf Hgr k). }
  assert (Hstep : lgood (lrun grow o s) (deque o m) /\ full (lrun grow o s)); [|destruct Hstep; apply IH; auto].
  destruct o as [j v|j v|j j']; cbn [lrun deque].
  - destruct Hl as [Hl|Hgr]; [elim (Hl j v); left|]. destruct (append_tail grow (ls_heap s) (entry s j) v) as [x h'] eqn:E. destruct (proj2 Hg j) as [Hs Hj].
    destruct (tail_spec _ _ _ _ _ _ E (proj1 Hg) Hs) as (H1 & H2 & H3 & [(_ & _ & _ & H4)|(_ & Hk & H4)]); [rewrite (Hf Hgr j) in H4; lia|]. apply Hput; auto. rewrite H3. unfold shown in Hj. rewrite Hj. reflexivity.
  - destruct (append_head grow (ls_heap s) (entry s j) v) as [x h'] eqn:E. destruct (proj2 Hg j) as [Hs Hj]. destruct (head_spec _ _ _ _ _ _ E (proj1 Hg) Hs) as (H1 & H2 & H3 & _ & Hk & H4). apply Hput; auto. rewrite H3. unfold shown in Hj. rewrite Hj. reflexivity.
  - destruct (proj2 Hg j) as [Hs Hj]. apply Hput; auto; [apply Hg|intros a _ _; reflexivity].
Qed.
Example C135_nonvacuous : shown (lruns (fun _ n => n) [LTail 0 (bs "a"); LTail 0 (bs "b"); LTail 0 (bs "c"); LCopy 0 1; LTail 0 (bs "x"); LTail 1 (bs "y")] l_start) 0 = [bs "a"; bs "b"; bs "c"; bs "x"] /\
  shown (lruns doubling [LHead 0 (bs "b"); LHead 0 (bs "a"); LCopy 0 1; LHead 0 (bs "x"); LHead 1 (bs "y")] l_start) 1 = [bs "y"; bs "a"; bs "b"].
Proof. split; vm_compute; reflexivity. Qed.

(** ** C136: list calls
    Full statement: after RPush(k, v...) on an absent key, LRange(k, 0, -1) returns v...
    Missing: no list call is implemented. *)
Theorem C136_refuted c w : run_list c w = EPanic.
Proof. destruct c; reflexivity. Qed.
