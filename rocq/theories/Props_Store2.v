(** * Props_Store2: many goroutines against the reference store *)
From stdpp Require Import list fin_maps.
From Verif Require Import Base GoFloat CacheModel CacheSpec StoreSpec CacheConc.
From Verif Require Import CacheAbs CacheRefine CacheRefineH CacheMain CacheLib ConcLin Props_String Props_String2 Props_Db Props_Conc Props_Store.

(** A text without digits and without the letter n is not a number literal, and neither is any concatenation of such texts. *)
Definition letter (b : byte) : Prop := is_digit b = false /\ b2z b <> 110 /\ b2z b <> 78.
Definition letters (s : gostr) : Prop := Forall letter s.

Lemma letter_lower b : letter b -> b2z (lower_byte b) <> 110.
Proof. intros (_ & H1 & H2). destruct b; vm_compute in H1, H2 |- *; congruence. Qed.
Lemma no_special s : letters s -> special_float s = None.
Proof.
  intros H. assert (G : Forall (fun b => b2z b <> 110) (to_lower s)).
  { unfold to_lower. induction H as [|b s Hb _ IH]; cbn; constructor; auto using letter_lower. }
  assert (Hn : forall x, existsb (fun b => b2z b =? 110) (bs x) = true -> eq_nocase s x = false).
  { intros x Hx. unfold eq_nocase. apply bool_decide_eq_false_2. intros E. rewrite E in G. apply existsb_exists in Hx as (b & Hi & Hb).
    apply Z.eqb_eq in Hb. rewrite List.Forall_forall in G. exact (G b Hi Hb). }
  unfold special_float. rewrite !Hn by reflexivity. reflexivity.
Qed.
Lemma no_mant s : letters s -> forall m nf dot und, snd (fst (fst (scan_mant false s m nf dot false und))) = false.
Proof.
  induction 1 as [|b s Hb _ IH]; intros m nf dot und; [reflexivity|]. cbn [scan_mant]. destruct (b2z b =? 95); [apply IH|].
  destruct (b2z b =? 46); [destruct dot; [reflexivity|apply IH]|]. unfold digit_of. destruct Hb as [-> _]. reflexivity.
Qed.
Lemma letters_wordy s : letters s -> wordy s.
Proof.
  intros H. split.
  - unfold atoi. assert (G : forall r : gostr, letters r -> forall b : bool, match r with [] => None | _ => if forallb is_digit r then let v := if b then - dec_val r else dec_val r in if is_int64 v then Some v else None else None end = None).
    { intros r [|x l [Hx _] _] b; [reflexivity|]. cbn [forallb]. rewrite Hx. reflexivity. }
    destruct H as [|x l Hx Hl]; [reflexivity|]. destruct (b2z x =? 45); [apply (G l Hl true)|]. destruct (b2z x =? 43); [apply (G l Hl false)|]. apply (G (x :: l) ltac:(constructor; auto) false).
  - unfold parse_float. rewrite no_special by exact H. unfold read_float, read_float_full.
    assert (Hs : letters (snd (strip_sign s))).
    { destruct H as [|x l Hx Hl]; cbn; [constructor|]. destruct (b2z x =? 45); [exact Hl|]. destruct (b2z x =? 43); [exact Hl|]. constructor; auto. }
    destruct (strip_sign s) as [neg r]. cbn [snd] in Hs.
    assert (Hh : strip_hex r = (false, r)).
    { destruct Hs as [|a r Ha Hr]; [reflexivity|]. destruct Hr as [|b r Hb Hr]; [reflexivity|]. cbn. destruct (Z.eqb_spec (b2z a) 48) as [E|]; [|reflexivity].
      destruct Ha as [Ha _]. unfold is_digit in Ha. rewrite E in Ha. discriminate. }
    rewrite Hh. pose proof (no_mant r Hs 0 0 false false) as Hm. destruct (scan_mant false r 0 0 false false false) as [[[[m nf] dig] und] rest]. cbn in Hm. subst dig. reflexivity.
Qed.
Lemma letters_plain s : letters s -> plain s.
Proof. intros H. destruct (letters_wordy s H) as [H1 H2]. unfold plain, text. rewrite H1, H2. reflexivity. Qed.

(** Calls on texts, none of which sets a deadline, makes a hash or writes a number. *)
Definition texty (c : call) : Prop :=
  match c with
  | CSet _ v | CSetNX _ v | CGetSet _ v | CAppend _ v => letters v
  | CSetRange _ pos r => letters r /\ pos <= 2 ^ 48
  | CDel _ | CFlush | CGet _ | CStrLen _ | CGetRange _ _ _ | CType _ | CExists [_] | CMGet [_] => True
  | _ => False
  end.
Definition texts (st : store) : Prop := forall k, match st k with None => True | Some (Txt s, None) => letters s | _ => False end.
Lemma letters_app a b : letters a -> letters b -> letters (a ++ b). Proof. apply Forall_app_2. Qed.
Lemma letters_splice o n r : letters o -> letters r -> letters (splice o n r).
Proof.
  intros Ho Hr. unfold splice. repeat apply letters_app; auto; unfold letters; [apply Forall_take, Ho| |apply Forall_drop, Ho].
  apply List.Forall_forall. intros x Hx. apply repeat_spec in Hx as ->. split; [reflexivity|]. split; vm_compute; discriminate.
Qed.
Lemma texts_at st k x : texts st -> match x with None => True | Some (Txt s, None) => letters s | _ => False end -> texts (at_key st k x).
Proof. intros H Hx k'. unfold at_key. destruct (decide (k' = k)); [exact Hx|apply H]. Qed.
Lemma texts_live st t k : texts st -> expired t (st k) = false /\ live t (st k) = st k.
Proof. intros H. specialize (H k). unfold live, expired. destruct (st k) as [[[s|m] [e|]]|]; cbn; auto; destruct H. Qed.
Lemma texts_settle st t ks : texts st -> texts (settle t ks st).
Proof. intros H k. unfold settle. destruct (texts_live st t k H) as [_ ->]. destruct (decide _); apply H. Qed.

Lemma texty_fits c t st : texty c -> texts st -> fits c t st [] /\ texts (fst (ref_call c t st)) /\ spoil c [] = [].
Proof.
  intros Hc Hs. assert (Hk : forall k, match st k with None => True | Some (Txt s, None) => letters s | _ => False end) by exact Hs.
  assert (Hl : forall k, expired t (st k) = false /\ live t (st k) = st k) by (intros k; apply texts_live, Hs).
  destruct c; try (destruct Hc; fail); cbn [texty] in Hc.
  all: try (destruct (Hl k) as [Hx Hy]; unfold ref_call; cbn [fits keys_of fits1 spoil]; rewrite ?Hy).
  - split; [split; [apply letters_plain, Hc|specialize (Hk k); destruct (st k) as [[[s|m] [e|]]|]; tauto || reflexivity]|]. split; [|reflexivity]. apply texts_at; auto.
  - split; [split; [apply letters_plain, Hc|exact Hx]|]. split; [|reflexivity]. cbn. specialize (Hk k). destruct (present (st k)) eqn:Ep; cbn; apply texts_at; auto.
  - split; [exact I|]. split; [|reflexivity]. cbn. apply texts_at; auto. apply Hk.
  - specialize (Hk k). split; [split; [apply letters_plain, Hc|]|split; [|reflexivity]]; destruct (st k) as [[[s|m] [e|]]|]; cbn; try tauto; try reflexivity; apply texts_at; auto.
  - split; [exact I|]. split; [|reflexivity]. cbn. apply texts_at; auto. apply Hk.
  - specialize (Hk k). split; [|split; [|reflexivity]]; destruct (st k) as [[[s|m] [e|]]|]; cbn; try tauto; try (apply letters_plain; auto using letters_app; fail); apply texts_at; auto using letters_app.
  - destruct Hc as [Hr Hp]. specialize (Hk k). split; [destruct (pos <? 0); [exact Hx|]|split; [|reflexivity]; cbn [ref1]; destruct (pos <? 0); [cbn; apply texts_at; auto|]];
      destruct (st k) as [[[s|m] [e|]]|]; cbn; try tauto; try (split; [exact Hp|]); try (apply letters_plain; auto using letters_splice; fail); try (apply letters_plain, letters_splice; [constructor|auto]); apply texts_at; auto using letters_splice.
    apply letters_splice; [constructor|auto].
  - split; [exact I|]. split; [|reflexivity]. cbn. apply texts_at; auto. apply Hk.
  - split; [exact I|]. split; [|reflexivity]. cbn. apply texts_settle, Hs.
  - split; [exact I|]. split; [|reflexivity]. cbn. apply texts_at; auto.
  - split; [exact I|]. split; [|reflexivity]. intros k. exact I.
  - split; [intros k _; apply Hl|]. split; [|reflexivity]. cbn. apply texts_settle, Hs.
  - split; [specialize (Hk k); destruct (st k) as [[[s|m] e]|]; auto; destruct Hk|]. split; [|reflexivity]. cbn. apply texts_at; auto. apply Hk.
Qed.
Lemma texty_all_fit h : forall st, texts st -> all_calls (fun _ c => texty c) h -> all_fit h st [].
Proof.
  induction h as [|[t c] h IH]; intros st Hs Hh; [exact I|]. inversion_clear Hh as [|? ? H1 H2]. destruct (texty_fits c t st H1 Hs) as (A & B & C).
  cbn [all_fit]. rewrite C. auto.
Qed.
Lemma texty_reply c t st l : texty c -> snd (ref_call c t st) <> RList l.
Proof.
  intros H. assert (G : forall x, snd (ref1 c t x) <> RList l).
  { intros x. destruct c; try (destruct H; fail); cbn [ref1]; try discriminate; try (destruct (pos <? 0); [discriminate|]); destruct x as [[[s|m] e]|]; cbn; discriminate. }
  destruct c; try (destruct H; fail); unfold ref_call; cbn [keys_of]; try discriminate.
  all: match goal with |- context [ref1 ?a ?b ?x] => specialize (G x); destruct (ref1 a b x) end; exact G.
Qed.
Lemma texty_replies h : forall st rs, all_calls (fun _ c => texty c) h -> Forall2 same_reply rs (ref_run h st) -> rs = ref_run h st.
Proof.
  induction h as [|[t c] h IH]; intros st rs Hh H; cbn [ref_run] in *; [inversion H; reflexivity|]. inversion_clear Hh as [|? ? H1 H2].
  destruct (ref_call c t st) as [st' r] eqn:E. inversion H as [|r0 ? rs0 ? Hr Hrs]; subst. f_equal; [|apply IH; auto].
  assert (Hn : forall l, r <> RList l) by (intros l; change r with (snd (st', r)); rewrite <- E; apply texty_reply, H1).
  destruct r0, r; cbn in Hr; try discriminate Hr; try exact Hr; try (destruct r0; discriminate Hr). destruct (Hn r eq_refl).
Qed.

(** ** C169

    In every concurrent execution of such calls the replies are those the reference store gives to the calls made one after the
    other in some order; each call takes its place in that order between its invocation and its return. *)
Theorem C169_one_reference_store t0 s c evs : calls_in texty evs -> cexec s (start (new_world t0)) = Some (c, evs) ->
  exists A m last ws, lin_ok (new_world t0) A m (w_now (c_w c)) last ws /\ observed A = evs /\ lin_replies A = ref_run (lin_calls A) no_keys.
Proof.
  intros Hc E. destruct (C105_readers_and_writers_linearizable (new_world t0) s c evs) as (A & m & last & ws & H1 & H2 & H3 & _); auto using ready_new.
  - intros i cl Hi. specialize (Hc i cl Hi). destruct cl; cbn in *; auto. destruct Hc as [_ Hp]. unfold max_alloc. exact Hp.
  - exists A, m, last, ws. split; [exact H1|]. split; [exact H2|].
    assert (Ha : all_calls (fun _ c => texty c) (lin_calls A)) by (eapply lin_issued; [exact H1|rewrite H2; exact Hc]).
    destruct (C168_reference_partial t0 (lin_calls A)) as (w & rs & E1 & Hs); [apply texty_all_fit; [intros k; exact I|exact Ha]|].
    rewrite H3 in E1. injection E1 as _ <-. apply texty_replies; auto.
Qed.
Example C169_nonvacuous :
  events_of ([AInv 1 (CAppend (bs "k") (bs "a")); AInv 2 (CGet (bs "k")); AInv 3 (CAppend (bs "k") (bs "b"))] ++ runs 1 4 ++ runs 2 4 ++ runs 3 5 ++ [ARet 3; ARet 2; ARet 1]) (new_world 0) =
  Some [EInv 1 (CAppend (bs "k") (bs "a")); EInv 2 (CGet (bs "k")); EInv 3 (CAppend (bs "k") (bs "b")); ERet 3 (RInt (2, None)); ERet 2 (RStr (bs "a", None)); ERet 1 (RInt (1, None))] /\
  texty (CAppend (bs "k") (bs "a")) /\ texty (CGet (bs "k")) /\
  ref_run [(0, CAppend (bs "k") (bs "a")); (0, CGet (bs "k")); (0, CAppend (bs "k") (bs "b"))] no_keys = [RInt (1, None); RStr (bs "a", None); RInt (2, None)].
Proof. split; [vm_compute; reflexivity|]. split; [repeat constructor; vm_compute; discriminate|]. split; [exact I|vm_compute; reflexivity]. Qed.
