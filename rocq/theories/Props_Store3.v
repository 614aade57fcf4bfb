(** * Props_Store3: counters and texts, many goroutines, against the reference store *)
From stdpp Require Import list fin_maps.
From Verif Require Import Base GoFloat CacheModel CacheSpec StoreSpec CacheConc.
From Verif Require Import CacheAbs CacheRefine CacheRefineH CacheMain CacheLib ConcLin Props_String Props_String2 Props_Counter Props_Db Props_Conc Props_Store Props_Store2.

(** Keys for which [K] holds are counters, all others hold texts.  No call sets a deadline or makes a hash. *)
Definition counting (K : gostr -> bool) (c : call) : Prop :=
  match c with
  | CSet k v | CSetNX k v | CGetSet k v => if K k then exists n, v = itoa n /\ int64 n else letters v
  | CAppend k v => K k = false /\ letters v
  | CSetRange k pos r => K k = false /\ letters r /\ pos <= 2 ^ 48
  | CIncr k | CDecr k | CIncrBy k _ | CDecrBy k _ => K k = true
  | CDel _ | CFlush | CGet _ | CStrLen _ | CGetRange _ _ _ | CType _ | CExists [_] | CMGet [_] => True
  | _ => False
  end.
(** How far a call can move a counter from zero. *)
Definition weight (c : call) : Z :=
  match c with
  | CSet _ v | CSetNX _ v | CGetSet _ v => match atoi v with Some n => Z.abs n | None => 0 end
  | CIncr _ | CDecr _ => 1
  | CIncrBy _ d | CDecrBy _ d => Z.abs d
  | _ => 0
  end.
Definition total (l : list call) : Z := foldr (fun c n => weight c + n) 0 l.

Lemma weight_pos c : 0 <= weight c.
Proof. destruct c; cbn; try lia; destruct (atoi v); lia. Qed.
Lemma total_pos l : 0 <= total l.
Proof. induction l as [|c l IH]; [discriminate|]. change (0 <= weight c + total l). pose proof (weight_pos c). lia. Qed.
Lemma total_app a b : total (a ++ b) = total a + total b.
Proof. induction a as [|c a IH]; [reflexivity|]. change (weight c + total (a ++ b) = weight c + total a + total b). rewrite IH. lia. Qed.
Lemma total_perm a b : a ≡ₚ b -> total a = total b.
Proof. induction 1; unfold total in *; cbn [foldr]; lia. Qed.

Definition shaped1 (K : gostr -> bool) (B : Z) (k : gostr) (x : StoreSpec.item) : Prop :=
  match x with
  | None => True
  | Some (Txt s, None) => if K k then exists n, s = itoa n /\ Z.abs n <= B else letters s
  | _ => False
  end.
Definition shaped K B (st : store) : Prop := forall k, shaped1 K B k (st k).
Lemma shaped1_mono K B B' k x : B <= B' -> shaped1 K B k x -> shaped1 K B' k x.
Proof. intros H. unfold shaped1. destruct x as [[[s|m] [e|]]|]; auto. destruct (K k); auto. intros (n & -> & Hn). exists n. split; [reflexivity|lia]. Qed.
Lemma shaped_mono K B B' st : B <= B' -> shaped K B st -> shaped K B' st.
Proof. intros H Hs k. eapply shaped1_mono; eauto. Qed.
Lemma shaped_at K B st k x : shaped K B st -> shaped1 K B k x -> shaped K B (at_key st k x).
Proof. intros H Hx k'. unfold at_key. destruct (decide (k' = k)) as [->|]; [exact Hx|apply H]. Qed.
Lemma shaped_live K B st t k : shaped K B st -> expired t (st k) = false /\ live t (st k) = st k.
Proof. intros H. specialize (H k). unfold live, expired. destruct (st k) as [[[s|m] [e|]]|]; cbn in *; auto; destruct H. Qed.
Lemma shaped_settle K B st t ks : shaped K B st -> shaped K B (settle t ks st).
Proof. intros H k. unfold settle. destruct (shaped_live K B st t k H) as [_ ->]. destruct (decide _); apply H. Qed.
Lemma shaped_dl K B st k : shaped K B st -> dl_of (st k) = None.
Proof. intros H. specialize (H k). destruct (st k) as [[[s|m] [e|]]|]; cbn in *; auto; destruct H. Qed.

(** a value written by Set, SetNX, GetSet *)
Lemma written (K : gostr -> bool) B k v : (if K k then exists n, v = itoa n /\ int64 n else letters v) -> 0 <= B ->
  plain v /\ shaped1 K (B + match atoi v with Some n => Z.abs n | None => 0 end) k (Some (Txt v, None)).
Proof.
  intros H HB. unfold shaped1. destruct (K k).
  - destruct H as (n & -> & Hn). split; [apply plain_itoa, Hn|]. exists n. split; [reflexivity|]. rewrite atoi_itoa by (apply int64_iff, Hn). lia.
  - split; [apply letters_plain, H|exact H].
Qed.
Lemma counted K B k d x : shaped1 K B k x -> K k = true -> 0 <= B -> B + Z.abs d < 2 ^ 63 ->
  counts d x /\ shaped1 K (B + Z.abs d) k (fst (count_by d x)).
Proof.
  intros H Hk HB Hd. unfold shaped1, counts, count_by in *. rewrite Hk in *. destruct x as [[[s|m] [e|]]|]; try (destruct H; fail).
  - destruct H as (n & -> & Hn). assert (Hi : int64 n) by (unfold int64; lia). rewrite atoi_itoa by (apply int64_iff, Hi). split.
    + intros n' [= <-]. unfold int64. lia.
    + exists (n + d). split; [reflexivity|lia].
  - split; [unfold int64; lia|]. exists d. split; [reflexivity|lia].
Qed.

Lemma counting_fits K B c t st : counting K c -> shaped K B st -> 0 <= B -> B + weight c < 2 ^ 63 ->
  fits c t st [] /\ shaped K (B + weight c) (fst (ref_call c t st)) /\ spoil c [] = [].
Proof.
  intros Hc Hs HB Hw. pose proof (shaped_mono K B (B + weight c) st ltac:(pose proof (weight_pos c); lia) Hs) as Hs'.
  assert (Hl : forall k, expired t (st k) = false /\ live t (st k) = st k) by (intros k; eapply shaped_live, Hs).
  destruct c; try (destruct Hc; fail); cbn [counting weight] in *.
  all: try (destruct (Hl k) as [Hx Hy]; unfold ref_call; cbn [fits keys_of fits1 spoil]; rewrite ?Hy; pose proof (Hs' k) as Hk).
  - (* Set *) destruct (written K B k v Hc HB) as [H1 H2]. split; [split; [exact H1|eapply shaped_dl, Hs]|]. split; [|reflexivity]. apply shaped_at; auto.
  - (* SetNX *) destruct (written K B k v Hc HB) as [H1 H2]. split; [auto|]. split; [|reflexivity]. cbn. destruct (present (st k)); cbn; apply shaped_at; auto.
  - (* Get *) split; [exact I|]. split; [|reflexivity]. cbn. apply shaped_at; auto.
  - (* GetSet *) destruct (written K B k v Hc HB) as [H1 H2]. split; [split; [exact H1|]|split; [|reflexivity]]; destruct (st k) as [[[s|m] [e|]]|]; cbn in *; try tauto; try reflexivity; apply shaped_at; auto.
  - (* StrLen *) split; [exact I|]. split; [|reflexivity]. cbn. apply shaped_at; auto.
  - (* Append *) destruct Hc as [Hf Hv]. unfold shaped1 in Hk. rewrite Hf in Hk. split; [|split; [|reflexivity]]; destruct (st k) as [[[s|m] [e|]]|]; cbn; try tauto; try (apply letters_plain; auto using letters_app; fail);
      apply shaped_at; auto; unfold shaped1; rewrite Hf; auto using letters_app.
  - (* SetRange *) destruct Hc as (Hf & Hr & Hp). unfold shaped1 in Hk. rewrite Hf in Hk. split.
    { destruct (pos <? 0); [exact Hx|]. destruct (st k) as [[[s|m] [e|]]|]; cbn; try tauto; try (split; [exact Hp|]); apply letters_plain, letters_splice; auto. constructor. }
    split; [|reflexivity]. cbn [ref1]. destruct (pos <? 0); [cbn; apply shaped_at; auto|].
    destruct (st k) as [[[s|m] [e|]]|]; cbn; try tauto; apply shaped_at; auto; unfold shaped1; rewrite Hf; apply letters_splice; auto. constructor.
  - (* GetRange *) split; [exact I|]. split; [|reflexivity]. cbn. apply shaped_at; auto.
  - destruct (counted K B k 1 (st k) (Hs k) Hc HB Hw) as [H1 H2]. split; [auto|]. split; [|reflexivity]. cbn. apply shaped_at; auto.
  - destruct (counted K B k d (st k) (Hs k) Hc HB Hw) as [H1 H2]. split; [auto|]. split; [|reflexivity]. cbn. apply shaped_at; auto.
  - destruct (counted K B k (-1) (st k) (Hs k) Hc HB Hw) as [H1 H2]. split; [auto|]. split; [|reflexivity]. cbn. apply shaped_at; auto.
  - destruct (counted K B k (- d) (st k) (Hs k) Hc HB ltac:(rewrite Z.abs_opp; exact Hw)) as [H1 H2]. rewrite Z.abs_opp in H2. split; [auto|]. split; [|reflexivity]. cbn. apply shaped_at; auto.
  - (* MGet *) split; [exact I|]. split; [|reflexivity]. cbn. apply shaped_settle, Hs'.
  - (* Del *) split; [exact I|]. split; [|reflexivity]. cbn. apply shaped_at; auto.
  - (* Flush *) split; [exact I|]. split; [|reflexivity]. intros k. exact I.
  - (* Exists *) split; [intros k _; apply Hl|]. split; [|reflexivity]. cbn. apply shaped_settle, Hs'.
  - (* Type *) split; [destruct (st k) as [[[s|m] [e|]]|]; auto; destruct Hk|]. split; [|reflexivity]. cbn. apply shaped_at; auto.
Qed.
Lemma counting_all_fit K h : forall B st, shaped K B st -> 0 <= B -> B + total (map snd h) < 2 ^ 63 -> all_calls (fun _ c => counting K c) h -> all_fit h st [].
Proof.
  induction h as [|[t c] h IH]; intros B st Hs HB Ht Hh; [exact I|]. inversion_clear Hh as [|? ? H1 H2]. change (B + (weight c + total (map snd h)) < 2 ^ 63) in Ht. pose proof (total_pos (map snd h)). pose proof (weight_pos c).
  destruct (counting_fits K B c t st H1 Hs HB ltac:(lia)) as (X & Y & Z).
  cbn [all_fit]. rewrite Z. split; [exact X|]. apply (IH (B + weight c)); auto; lia.
Qed.
Lemma counting_reply K c t st l : counting K c -> snd (ref_call c t st) <> RList l.
Proof.
  intros H. assert (G : forall x, snd (ref1 c t x) <> RList l).
  { intros x. destruct c; try (destruct H; fail); cbn [ref1]; try discriminate; try (destruct (pos <? 0); [discriminate|]); destruct x as [[[s|m] e]|]; cbn; discriminate. }
  destruct c; try (destruct H; fail); unfold ref_call; cbn [keys_of]; try discriminate.
  all: match goal with |- context [ref1 ?a ?b ?x] => specialize (G x); destruct (ref1 a b x) end; exact G.
Qed.
Lemma counting_replies K h : forall st rs, all_calls (fun _ c => counting K c) h -> Forall2 same_reply rs (ref_run h st) -> rs = ref_run h st.
Proof.
  induction h as [|[t c] h IH]; intros st rs Hh H; cbn [ref_run] in *; [inversion H; reflexivity|]. inversion_clear Hh as [|? ? H1 H2].
  destruct (ref_call c t st) as [st' r] eqn:E. inversion H as [|r0 ? rs0 ? Hr Hrs]; subst. f_equal; [|apply IH; auto].
  assert (Hn : forall l, r <> RList l) by (intros l; change r with (snd (st', r)); rewrite <- E; eapply counting_reply, H1).
  destruct r0, r; cbn in Hr; try discriminate Hr; try exact Hr; try (destruct r0; discriminate Hr). destruct (Hn r eq_refl).
Qed.

(** ** C170

    As C169, with counters: the sums are exact as long as all amounts given to counting calls together stay below 2^63. *)
Theorem C170_counters_share_reference_store K t0 s c evs : calls_in (counting K) evs -> total (issued evs) < 2 ^ 63 ->
  cexec s (start (new_world t0)) = Some (c, evs) ->
  exists A m last ws, lin_ok (new_world t0) A m (w_now (c_w c)) last ws /\ observed A = evs /\ lin_replies A = ref_run (lin_calls A) no_keys.
Proof.
  intros Hc Ht E. destruct (C105_readers_and_writers_linearizable (new_world t0) s c evs) as (A & m & last & ws & H1 & H2 & H3 & _); auto using ready_new.
  - intros i cl Hi. specialize (Hc i cl Hi). destruct cl; cbn in *; auto. destruct Hc as (_ & _ & Hp). unfold max_alloc. exact Hp.
  - exists A, m, last, ws. split; [exact H1|]. split; [exact H2|].
    assert (Ha : all_calls (fun _ c => counting K c) (lin_calls A)) by (eapply lin_issued; [exact H1|rewrite H2; exact Hc]).
    pose proof (total_perm _ _ (lin_ok_calls _ _ _ _ _ _ H1)) as Hp. rewrite H2, total_app in Hp. pose proof (total_pos (pending m)).
    destruct (C168_reference_partial t0 (lin_calls A)) as (w & rs & E1 & Hs); [apply (counting_all_fit K _ 0); [intros k; exact I|lia|lia|exact Ha]|].
    rewrite H3 in E1. injection E1 as _ <-. eapply counting_replies; eauto.
Qed.
Definition is_c (k : gostr) : bool := bool_decide (k = bs "n").
Example C170_nonvacuous :
  events_of ([AInv 1 (CIncrBy (bs "n") 5); AInv 2 (CGet (bs "n")); AInv 3 (CDecr (bs "n"))] ++ runs 1 3 ++ runs 2 4 ++ runs 3 4 ++ [ARet 3; ARet 2; ARet 1]) (new_world 0) =
  Some [EInv 1 (CIncrBy (bs "n") 5); EInv 2 (CGet (bs "n")); EInv 3 (CDecr (bs "n")); ERet 3 (RInt (4, None)); ERet 2 (RStr (bs "5", None)); ERet 1 (RInt (5, None))] /\
  counting is_c (CIncrBy (bs "n") 5) /\ counting is_c (CAppend (bs "k") (bs "a")) /\ total [CIncrBy (bs "n") 5; CGet (bs "n"); CDecr (bs "n")] = 6 /\
  ref_run [(0, CIncrBy (bs "n") 5); (0, CGet (bs "n")); (0, CDecr (bs "n"))] no_keys = [RInt (5, None); RStr (bs "5", None); RInt (4, None)].
Proof. split; [vm_compute; reflexivity|]. split; [reflexivity|]. split; [split; [reflexivity|repeat constructor; vm_compute; discriminate]|]. split; vm_compute; reflexivity. Qed.
(** The bound is needed. *)
Theorem C170_bound_needed : exists h rs w, all_calls (fun _ c => counting is_c c) h /\ total (map snd h) = 2 ^ 63 /\
  run_hist h (new_world 0) = Done w rs /\ rs <> ref_run h no_keys.
Proof.
  exists [(0, CIncrBy (bs "n") (2 ^ 63 - 1)); (0, CIncr (bs "n"))]. eexists _, _. split; [repeat constructor|]. split; [reflexivity|]. split; [vm_compute; reflexivity|vm_compute; discriminate].
Qed.
