(** * Props_String2: SetRange, GetRange, StrLen, counters, MSet, MGet (single caller) *)
From Verif Require Import Base GoFloat CacheModel CacheSpec.
From Verif Require Import CacheAbs CacheRefine CacheRefineH CacheMain CacheLib Props_String.

(** ** C11 *)
Lemma lookup_repeat_lt {A} (x : A) n j : (j < n)%nat -> repeat x n !! j = Some x.
Proof. revert j. induction n; intros [|j] H; simpl; try lia; auto. apply IHn. lia. Qed.
Lemma setrange_loop_spec r : forall str p, (p <= length str)%nat ->
  setrange_loop str p r = take p str ++ r ++ drop (p + length r) str.
Proof.
  induction r as [|b r IH]; intros str p Hp; cbn [setrange_loop length].
  - rewrite Nat.add_0_r. simpl. rewrite take_drop. reflexivity.
  - destruct (Nat.ltb_spec p (length str)).
    + rewrite IH by (rewrite insert_length; lia).
      rewrite (take_S_r _ _ b) by (rewrite list_lookup_insert; auto).
      rewrite take_insert by lia. rewrite drop_insert_gt by lia.
      rewrite <- app_assoc. simpl. do 3 f_equal. f_equal. lia.
    + assert (p = length str) as -> by lia.
      rewrite IH by (rewrite app_length; simpl; lia).
      rewrite (firstn_all2 (str ++ [b])) by (rewrite app_length; simpl; lia).
      rewrite (firstn_all2 str) by lia. rewrite !drop_ge by (rewrite ?app_length; simpl; lia).
      rewrite <- app_assoc. reflexivity.
Qed.

(** The written string, byte by byte. *)
Definition spliced (old : gostr) (pos : Z) (r s : gostr) : Prop :=
  zlen s = Z.max (zlen old) (pos + zlen r) /\
  forall i : nat, (i < length s)%nat ->
    s !! i = if (pos <=? Z.of_nat i) && (Z.of_nat i <? pos + zlen r) then r !! (i - Z.to_nat pos)%nat
             else if Z.of_nat i <? zlen old then old !! i else Some x00.

Lemma spliced_loop old pos r : 0 <= pos ->
  spliced old pos r (setrange_loop (old ++ repeat x00 (Z.to_nat pos - length old)%nat) (Z.to_nat pos) r).
Proof.
  intros Hp. set (n := Z.to_nat pos). assert (Hn : Z.of_nat n = pos) by lia.
  rewrite setrange_loop_spec by (rewrite app_length, repeat_length; lia).
  set (str := old ++ repeat x00 (n - length old)).
  assert (Hl : length str = Nat.max (length old) n) by (unfold str; rewrite app_length, repeat_length; lia).
  split.
  - unfold zlen. rewrite !app_length, take_length, drop_length. lia.
  - intros i Hi. unfold zlen. 
    rewrite !app_length, take_length, drop_length in Hi.
    assert (Hs : forall j, (j < length str)%nat -> str !! j = if Z.of_nat j <? Z.of_nat (length old) then old !! j else Some x00).
    { intros j Hj. unfold str. destruct (Z.ltb_spec (Z.of_nat j) (Z.of_nat (length old))).
      - apply lookup_app_l. lia.
      - rewrite lookup_app_r by lia. apply lookup_repeat_lt. lia. }
    destruct (Z.leb_spec pos (Z.of_nat i)); cbn [andb].
    + rewrite lookup_app_r by (rewrite take_length; lia). rewrite take_length.
      replace (n `min` length str)%nat with n by lia.
      destruct (Z.ltb_spec (Z.of_nat i) (pos + Z.of_nat (length r))); cbn [andb].
      * rewrite lookup_app_l by lia. reflexivity.
      * rewrite lookup_app_r by lia. rewrite lookup_drop.
        replace (n + length r + (i - n - length r))%nat with i by lia. apply Hs. lia.
    + rewrite lookup_app_l by (rewrite take_length; lia). rewrite lookup_take by lia. apply Hs. lia.
Qed.

Theorem C11_setrange_refuted :
  exists k a pos b, replies [(1, CSet k a); (1, CSetRange k pos b); (1, CGet k)] (new_world 0) =
    Some [RStr (bs "OK", None); RInt (3, None); RStr (bs "12", None)].
Proof. exists (bs "k"), (bs "12"), 2, (bs "."). vm_compute. reflexivity. Qed.
(** The returned length and the spliced bytes are right for every value; what a later Get shows
    is [text s], so the full statement needs [plain s]. *)
Theorem C11_setrange_partial w t k pos rp w1 r old :
  ready w -> 0 <= pos -> answer t (CGet k) w = ok_str old -> run_call t (CSetRange k pos rp) w = Done w1 r ->
  exists s, spliced old pos rp s /\ r = RInt (zlen s, None) /\ answer t (CGet k) w1 = ok_str (text s) /\
            (plain s -> answer t (CGet k) w1 = ok_str s).
Proof.
  intros Hr Hp Hg E1.
  destruct (run_single _ k _ _ _ _ Hr E1 eq_refl) as (Ha & Hr1 & Ho). cbn [abs1] in Ha.
  rewrite (answer_single _ k) in Hg by auto. cbn [abs1] in Hg.
  destruct (Z.ltb_spec pos 0); [lia|].
  destruct (fst (purge t (view w k))) as [c|] eqn:Ec; [|discriminate].
  unfold fmt_cret in Hg. destruct (fmt_cell c) as [s|]; [|discriminate]. injection Hg as ->.
  injection Ha as Hv <-. eexists. split; [apply spliced_loop, Hp|]. split; [reflexivity|].
  set (s' := setrange_loop _ _ _) in *.
  assert (Hx : answer t (CGet k) w1 = ok_str (text s')).
  { rewrite (answer_single _ k) by auto. cbn [abs1]. rewrite <- Hv. unfold put.
    destruct (view w k) as [[c0|] [dl|]]; simpl in Ec |- *; try discriminate.
    - destruct (dl <? t) eqn:El; [discriminate|]. cbn [snd]. rewrite El. cbn [fst]. unfold fmt_cret. cbn [fmt_cell]. rewrite fmt_try. reflexivity.
    - unfold fmt_cret. cbn [fmt_cell]. rewrite fmt_try. reflexivity. }
  split; [exact Hx|]. intros Hpl. rewrite Hx, Hpl. reflexivity.
Qed.
Theorem C11_setrange_absent_partial w t k pos rp w1 r :
  ready w -> 0 <= pos -> stored w k = None -> deadline w k = None -> run_call t (CSetRange k pos rp) w = Done w1 r ->
  exists s, spliced [] pos rp s /\ r = RInt (zlen s, None) /\ answer t (CGet k) w1 = ok_str (text s).
Proof.
  intros Hr Hp Hs Hd E1.
  destruct (run_single _ k _ _ _ _ Hr E1 eq_refl) as (Ha & Hr1 & Ho). cbn [abs1] in Ha.
  pose proof (view_none w k Hr Hs) as Hn. pose proof (view_dl w k Hr) as Hdl. rewrite Hd in Hdl.
  destruct (view w k) as [c e]. simpl in Hn, Hdl. subst. destruct (Z.ltb_spec pos 0); [lia|]. simpl in Ha.
  destruct (pos >? max_alloc); [discriminate|]. injection Ha as Hv <-. exists (repeat x00 (Z.to_nat pos) ++ rp). split; [|split; [reflexivity|]].
  - pose proof (spliced_loop [] pos rp Hp) as Hsp. rewrite setrange_loop_spec in Hsp by (rewrite app_length, repeat_length; simpl; lia).
    cbn [app length] in Hsp. rewrite Nat.sub_0_r in Hsp. rewrite firstn_all2 in Hsp by (rewrite repeat_length; lia).
    rewrite drop_ge in Hsp by (rewrite repeat_length; lia). rewrite app_nil_r in Hsp. exact Hsp.
  - rewrite (answer_single _ k) by auto. cbn [abs1]. rewrite <- Hv. simpl. unfold fmt_cret. cbn [fmt_cell]. rewrite fmt_try. reflexivity.
Qed.
(** On a key that cannot be read the process ends if [pos] is above 2^48, and only then. *)
Theorem C11_setrange_crash_refuted w t k pos rp :
  ready w -> (forall r, answer t (CGet k) w = Some r -> r = RStr ([], Some ErrKeyNil)) -> (run_call t (CSetRange k pos rp) w = EPanic <-> 2 ^ 48 < pos).
Proof.
  intros Hr Hg. assert (Hn : fst (purge t (view w k)) = None).
  { specialize (Hg (RStr (match fst (purge t (view w k)) with None => ([], Some ErrKeyNil) | Some x => fmt_cret x end))). rewrite (answer_single _ k) in Hg by auto. cbn [abs1] in Hg. specialize (Hg eq_refl).
    destruct (fst (purge t (view w k))) as [c|]; [|reflexivity]. unfold fmt_cret in Hg. destruct (fmt_cell c); discriminate. }
  change (2 ^ 48) with max_alloc. destruct (abs1 (CSetRange k pos rp) t (view w k)) as [[x r]|] eqn:Ea; pose proof Ea as Eb; cbn [abs1] in Eb; rewrite Hn in Eb.
  - destruct (run_single_ex (CSetRange k pos rp) k t w x r Hr eq_refl Ea) as (w' & -> & _). split; [discriminate|]. destruct (Z.ltb_spec pos 0); [unfold max_alloc; lia|]. destruct (Z.gtb_spec pos max_alloc); [discriminate|lia].
  - destruct (Z.ltb_spec pos 0); [discriminate|]. destruct (Z.gtb_spec pos max_alloc); [|discriminate]. split; [auto|]. intros _. apply run_panic; auto. rewrite (abs_single (CSetRange k pos rp) k t (view w) eq_refl), Ea. reflexivity.
Qed.
Example C11_crash_ex : run_call 9 (CSetRange (bs "nokey") (2 ^ 48 + 1) (bs "x")) demo = EPanic.
Proof. apply C11_setrange_crash_refuted; [apply ready_reachable, demo_reachable|intros r H; vm_compute in H; congruence|reflexivity]. Qed.
Example C11_nonvacuous : replies [(9, CSetRange (bs "a") 7 (bs "XY")); (9, CGet (bs "a"))] demo =
  Some [RInt (9, None); RStr (bs "hello" ++ [x00; x00] ++ bs "XY", None)] /\ plain (bs "hello" ++ [x00; x00] ++ bs "XY").
Proof. split; vm_compute; reflexivity. Qed.

(** ** C12 *)
Theorem C12_setrange_negative w t k pos rp w1 r :
  ready w -> pos < 0 -> run_call t (CSetRange k pos rp) w = Done w1 r ->
  r = RInt (0, Some ErrOffsetOutOfRange) /\ indist w1 w.
Proof.
  intros Hr Hp E1.
  destruct (run_single _ k _ _ _ _ Hr E1 eq_refl) as (Ha & Hr1 & Ho). cbn [abs1] in Ha.
  destruct (Z.ltb_spec pos 0); [|lia]. injection Ha as Hv <-. split; [reflexivity|].
  apply indist_of_view; auto. intros k'. destruct (decide (k' = k)) as [->|]; auto.
Qed.
Theorem C12_setrange_negative_returns w t k pos rp :
  ready w -> pos < 0 -> answer t (CSetRange k pos rp) w = err_int ErrOffsetOutOfRange.
Proof.
  intros Hr Hp. rewrite (answer_single _ k) by auto. cbn [abs1]. destruct (Z.ltb_spec pos 0); [reflexivity|lia].
Qed.

(** ** C13 *)
Lemma getrange_loop_spec s : forall fuel i e, (length s - Z.to_nat i < fuel)%nat -> 0 <= i ->
  getrange_loop fuel s i e = take (Z.to_nat (e - i + 1)) (drop (Z.to_nat i) s).
Proof.
  induction fuel as [|fuel IH]; intros i e Hf Hi; [lia|]. cbn [getrange_loop].
  destruct (Z.leb_spec i e).
  - destruct (s !! Z.to_nat i) as [b|] eqn:E.
    + assert (Hlt : (Z.to_nat i < length s)%nat) by (eapply lookup_lt_Some; eauto).
      rewrite (drop_S s b (Z.to_nat i)) by exact E.
      replace (Z.to_nat (e - i + 1)) with (S (Z.to_nat (e - (i + 1) + 1))) by lia.
      cbn [take]. f_equal. rewrite IH by lia. f_equal. f_equal. lia.
    + apply lookup_ge_None in E. rewrite drop_ge by lia. rewrite take_nil. reflexivity.
  - replace (Z.to_nat (e - i + 1)) with 0%nat by lia. reflexivity.
Qed.
(** bounds counted from the end when negative *)
Definition from_end (len i : Z) : Z := if i <? 0 then len + i else i.
(** the bytes of [s] whose index lies in [lo, hi] *)
Definition in_window (lo hi : Z) (p : Z * byte) : option byte :=
  if (lo <=? fst p) && (fst p <=? hi) then Some (snd p) else None.
Definition slice (s : gostr) (lo hi : Z) : gostr := omap (in_window lo hi) (zip (seqZ 0 (zlen s)) s).
Lemma list_omap_cons_eq {A B} (f : A -> option B) x l :
  omap f (x :: l) = match f x with Some y => y :: omap f l | None => omap f l end.
Proof. reflexivity. Qed.
Lemma slice_shift s : forall (n : nat) lo hi,
  omap (in_window lo hi) (zip (seqZ (Z.of_nat n) (zlen s)) s)
  = take (Z.to_nat (hi - Z.max lo (Z.of_nat n) + 1)) (drop (Z.to_nat (lo - Z.of_nat n)) s).
Proof.
  induction s as [|b s IH]; intros n lo hi.
  - rewrite drop_nil, take_nil. reflexivity.
  - unfold zlen in *. cbn [length]. rewrite seqZ_cons by lia.
    replace (Z.succ (Z.of_nat n)) with (Z.of_nat (S n)) by lia.
    replace (Z.pred (Z.of_nat (S (length s)))) with (Z.of_nat (length s)) by lia.
    specialize (IH (S n) lo hi).
    change (zip (Z.of_nat n :: seqZ (Z.of_nat (S n)) (Z.of_nat (length s))) (b :: s))
      with ((Z.of_nat n, b) :: zip (seqZ (Z.of_nat (S n)) (Z.of_nat (length s))) s).
    rewrite list_omap_cons_eq, IH. unfold in_window. cbn [fst snd].
    destruct (Z.leb_spec lo (Z.of_nat n)); cbn [andb].
    + replace (Z.to_nat (lo - Z.of_nat n)) with 0%nat by lia.
      replace (Z.to_nat (lo - Z.of_nat (S n))) with 0%nat by lia. rewrite !drop_0.
      destruct (Z.leb_spec (Z.of_nat n) hi).
      * replace (Z.to_nat (hi - Z.max lo (Z.of_nat n) + 1)) with (S (Z.to_nat (hi - Z.max lo (Z.of_nat (S n)) + 1))) by lia. reflexivity.
      * replace (Z.to_nat (hi - Z.max lo (Z.of_nat n) + 1)) with 0%nat by lia.
        replace (Z.to_nat (hi - Z.max lo (Z.of_nat (S n)) + 1)) with 0%nat by lia. reflexivity.
    + replace (Z.to_nat (lo - Z.of_nat n)) with (S (Z.to_nat (lo - Z.of_nat (S n)))) by lia. cbn [drop].
      f_equal. lia.
Qed.
Lemma slice_spec s lo hi : slice s lo hi = take (Z.to_nat (hi - Z.max 0 lo + 1)) (drop (Z.to_nat (Z.max 0 lo)) s).
Proof.
  unfold slice. pose proof (slice_shift s 0%nat lo hi) as H. change (Z.of_nat 0) with 0 in H. rewrite H.
  f_equal; [f_equal; lia|]. f_equal. lia.
Qed.
Theorem C13_getrange w t k st en s :
  ready w -> answer t (CGet k) w = ok_str s ->
  answer t (CGetRange k st en) w = ok_str (slice s (from_end (zlen s) st) (from_end (zlen s) en)).
Proof.
  intros Hr Hg. rewrite (answer_single _ k) in Hg by auto. rewrite (answer_single _ k) by auto. cbn [abs1] in *.
  destruct (fst (purge t (view w k))) as [c|]; [|discriminate].
  unfold fmt_cret in Hg. destruct (fmt_cell c) as [s'|]; [|discriminate]. injection Hg as ->.
  rewrite getrange_loop_spec by (unfold zlen in *; lia). rewrite slice_spec. unfold ok_str, from_end. reflexivity.
Qed.
Theorem C13_getrange_absent w t k st en :
  ready w -> answer t (CGet k) w = err_str ErrKeyNil -> answer t (CGetRange k st en) w = ok_str [].
Proof.
  intros Hr Hg. rewrite (answer_single _ k) in Hg by auto. rewrite (answer_single _ k) by auto. cbn [abs1] in *.
  destruct (fst (purge t (view w k))) as [c|]; [|reflexivity].
  unfold fmt_cret in Hg. destruct (fmt_cell c) as [s'|]; discriminate.
Qed.
Example C13_nonvacuous : answer 9 (CGetRange (bs "a") (-3) (-1)) demo = ok_str (bs "llo") /\
  answer 9 (CGetRange (bs "a") (-100) 1) demo = ok_str (bs "he") /\ answer 9 (CGetRange (bs "a") 3 1) demo = ok_str [].
Proof. vm_compute. auto. Qed.

(** ** C14 *)
Theorem C14_strlen w t k :
  ready w ->
  answer t (CStrLen k) w =
  match answer t (CGet k) w with
  | Some (RStr (s, None)) => ok_int (zlen s)
  | Some (RStr (_, Some ErrKeyNil)) => ok_int 0
  | Some (RStr (_, Some e)) => err_int e
  | _ => None
  end.
Proof.
  intros Hr. rewrite !(answer_single _ k) by auto. cbn [abs1].
  destruct (fst (purge t (view w k))) as [c|]; [|reflexivity]. unfold fmt_cret. destruct (fmt_cell c); reflexivity.
Qed.
Example C14_nonvacuous : answer 9 (CStrLen (bs "a")) demo = ok_int 5 /\ answer 9 (CStrLen (bs "h")) demo = err_int ErrWrongType /\
  answer 9 (CStrLen (bs "none")) demo = ok_int 0.
Proof. vm_compute. auto. Qed.
