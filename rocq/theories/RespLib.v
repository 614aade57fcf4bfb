(** * RespLib: lemmas about the reader and the grammar *)
From Verif Require Import Base RespModel RespSpec.

Lemma value_dec s : forall acc, value acc s = dec_val_from acc s.
Proof. induction s as [|b s IH]; intros acc; cbn; [reflexivity|]. rewrite IH. unfold dec_val_from. cbn. f_equal. unfold digit_val. lia. Qed.
Lemma digits_forallb s : digits s <-> s <> [] /\ forallb is_digit s = true.
Proof.
  unfold digits. split; intros [H1 H2]; (split; [exact H1|]).
  - clear H1. induction H2 as [|b s Hb Hs IH]; cbn; [reflexivity|]. rewrite IH. unfold is_digit. lia.
  - clear H1. induction s as [|b s IH]; constructor; cbn in H2; apply andb_prop in H2 as [H2 H3]; [unfold is_digit in H2; lia|auto].
Qed.
Lemma int64_is n : int64 n <-> is_int64 n = true.
Proof. rewrite is_int64_iff. unfold int64, min_int64, max_int64. lia. Qed.
Lemma atoi_num n d : num_int n d -> int64 n -> atoi d = Some n.
Proof.
  intros [[Hd Hv]|(r & -> & Hd & Hv)] Hn; apply digits_forallb in Hd as [Hne Hd]; rewrite value_dec in Hv; apply int64_is in Hn.
  - unfold atoi. destruct d as [|b d]; [congruence|]. assert (Hb : is_digit b = true) by (cbn in Hd; apply andb_prop in Hd; tauto).
    apply is_digit_not_sign in Hb as [-> ->]. rewrite Hd. unfold dec_val. rewrite Hv, Hn. reflexivity.
  - unfold atoi. rewrite b2z_z2b_small by lia. cbn [Z.eqb Pos.eqb]. destruct r as [|b r]; [congruence|]. rewrite Hd. unfold dec_val. rewrite Hv, Hn. reflexivity.
Qed.
Lemma atoi_nat n d : num_nat n d -> n < 2 ^ 63 -> atoi d = Some n.
Proof.
  intros H Hn. assert (0 <= n). { destruct H as [Hd <-]. apply digits_forallb in Hd as [_ Hd]. rewrite value_dec. apply dec_val_bounds in Hd. unfold dec_val in Hd. lia. }
  apply atoi_num; [left; exact H|]. unfold int64. lia.
Qed.
Lemma num_nat_itoa n : 0 <= n -> num_nat n (itoa n).
Proof.
  intros H. unfold itoa. destruct (Z.ltb_spec n 0); [lia|]. destruct (dec_spec n) as (Hd & Hv & Hne & _); [lia|].
  split; [apply digits_forallb; auto|]. rewrite value_dec. exact Hv.
Qed.
Lemma num_int_itoa n : num_int n (itoa n).
Proof.
  destruct (Z.ltb_spec n 0) as [H|H]; [|left; apply num_nat_itoa; exact H].
  right. unfold itoa. destruct (Z.ltb_spec n 0); [|lia]. destruct (dec_spec (- n)) as (Hd & Hv & Hne & _); [lia|].
  eexists. split; [reflexivity|]. split; [apply digits_forallb; auto|]. rewrite value_dec. unfold dec_val in Hv. lia.
Qed.
Lemma is_digit_nocr b : 48 <= b2z b <= 57 -> b <> CR /\ b <> LF.
Proof. intros H. split; intros ->; vm_compute in H; destruct H; congruence. Qed.
Lemma digits_line s : digits s -> CR ∉ s /\ LF ∉ s.
Proof.
  intros [_ H]. split; intros Hin; rewrite Forall_forall in H; apply elem_of_list_In in Hin; apply H in Hin; apply is_digit_nocr in Hin; tauto.
Qed.
Lemma num_line n d : num_int n d -> CR ∉ d /\ LF ∉ d.
Proof.
  intros [[Hd _]|(r & -> & Hd & _)]; [apply digits_line, Hd|]. apply digits_line in Hd as [H1 H2].
  split; intros Hin; apply elem_of_cons in Hin as [Hin|Hin]; [discriminate Hin|tauto|discriminate Hin|tauto].
Qed.
Lemma num_nat_line n d : num_nat n d -> CR ∉ d /\ LF ∉ d.
Proof. intros H. apply (num_line n). left. exact H. Qed.

(** ** the line reader *)
Lemma lf_index_app l r : LF ∉ l -> lf_index (l ++ LF :: r) = Some (length l).
Proof.
  induction l as [|b l IH]; intros H; cbn [lf_index app length].
  - replace (Byte.eqb LF LF) with true by reflexivity. reflexivity.
  - apply not_elem_of_cons in H as [H1 H2]. destruct (Byte.eqb b LF) eqn:E; [apply byte_eqb_eq in E; congruence|]. rewrite IH by exact H2. reflexivity.
Qed.
Lemma lf_index_none l : lf_index l = None <-> LF ∉ l.
Proof.
  induction l as [|b l IH]; cbn [lf_index]; [split; [intros _ H; inversion H|reflexivity]|].
  destruct (Byte.eqb b LF) eqn:E.
  - apply byte_eqb_eq in E. subst b. split; [discriminate|]. intros H. exfalso. apply H. left.
  - assert (b <> LF) by (intros ->; discriminate E). rewrite not_elem_of_cons. destruct (lf_index l).
    + split; [discriminate|]. intros [_ H1]. apply IH in H1. discriminate.
    + split; [|reflexivity]. intros _. split; [congruence|]. apply IH. reflexivity.
Qed.
Lemma lf_index_some l i : lf_index l = Some i -> exists a b, l = a ++ LF :: b /\ length a = i /\ LF ∉ a.
Proof.
  revert i. induction l as [|b l IH]; intros i H; cbn [lf_index] in H; [discriminate|]. destruct (Byte.eqb b LF) eqn:E.
  - apply byte_eqb_eq in E. subst b. injection H as <-. exists [], l. split; [reflexivity|]. split; [reflexivity|]. intros H; inversion H.
  - destruct (lf_index l) as [j|]; [|discriminate]. injection H as <-. destruct (IH j eq_refl) as (x & y & -> & <- & Hx).
    exists (b :: x), y. split; [reflexivity|]. split; [reflexivity|]. apply not_elem_of_cons. split; [|exact Hx]. intros <-. discriminate E.
Qed.
Lemma take_line (l rest : gostr) x : take (S (length l)) (l ++ x :: rest) = l ++ [x].
Proof. induction l as [|y l IH]; cbn; [reflexivity|]. f_equal. exact IH. Qed.
Lemma drop_line (l rest : gostr) x : drop (S (length l)) (l ++ x :: rest) = rest.
Proof. induction l as [|y l IH]; cbn; [reflexivity|]. exact IH. Qed.
Definition wf (s : rd) : Prop := (length (r_buf s) <= bufsize)%nat.
Definition strip (l : gostr) : gostr := if ends_with CR l then removelast l else l.
Lemma bufsize_pos : (0 < bufsize)%nat.
Proof. unfold bufsize. lia. Qed.
Opaque bufsize.

Lemma read_slice_line cs : forall buf l rest, buf ++ concat cs = l ++ LF :: rest -> LF ∉ l -> (length l < bufsize)%nat -> (length buf <= bufsize)%nat ->
  exists s', read_slice buf cs = (l ++ [LF], SFound, s') /\ bytes_left s' = rest /\ wf s'.
Proof.
  induction cs as [|c cs IH]; intros buf l rest E Hl Hn Hb; cbn [read_slice concat] in *.
  - rewrite app_nil_r in E. subst buf. rewrite lf_index_app by exact Hl. eexists. split; [|split].
    + rewrite take_line. reflexivity.
    + unfold bytes_left. cbn [r_buf r_src concat]. rewrite app_nil_r, drop_line. reflexivity.
    + unfold wf. cbn [r_buf]. rewrite drop_length. lia.
  - destruct (lf_index buf) as [i|] eqn:Ei.
    + apply lf_index_some in Ei as (a & b & -> & <- & Ha).
      assert (Hal : a = l /\ b ++ c ++ concat cs = rest).
      { assert (H1 : lf_index (a ++ LF :: b ++ c ++ concat cs) = Some (length a)) by (apply lf_index_app; exact Ha).
        assert (H2 : lf_index (l ++ LF :: rest) = Some (length l)) by (apply lf_index_app; exact Hl).
        rewrite <- app_assoc in E. cbn in E. rewrite E, H2 in H1. injection H1 as H1. apply app_inj_1 in E; [|lia]. destruct E as [-> E]. injection E as E. auto. }
      destruct Hal as [-> <-]. eexists. split; [|split].
      * rewrite take_line. reflexivity.
      * unfold bytes_left. cbn [r_buf r_src concat]. rewrite drop_line. reflexivity.
      * unfold wf. cbn [r_buf]. rewrite drop_length. lia.
    + apply lf_index_none in Ei. assert (Hlt : (length buf < bufsize)%nat).
      { destruct (decide (length buf <= length l)%nat); [lia|]. exfalso. apply Ei.
        assert (Hin : (l ++ LF :: rest) !! length l = Some LF) by (rewrite lookup_app_r, Nat.sub_diag by lia; reflexivity).
        rewrite <- E, lookup_app_l in Hin by lia. eapply elem_of_list_lookup_2; eauto. }
      destruct (Nat.leb_spec bufsize (length buf)) as [|_]; [lia|].
      destruct (drop (bufsize - length buf) c) as [|x d] eqn:Ed.
      * apply IH; auto.
        -- assert (take (bufsize - length buf) c = c). { rewrite <- (take_drop (bufsize - length buf) c) at 2. rewrite Ed, app_nil_r. reflexivity. }
           rewrite H, <- app_assoc. exact E.
        -- rewrite app_length. rewrite take_length. lia.
      * remember (bufsize - length buf)%nat as n eqn:Hnn. assert (Hlen : length (buf ++ take n c) = bufsize).
        { rewrite app_length, take_length. assert (length (drop n c) = S (length d)) by (rewrite Ed; reflexivity). rewrite drop_length in H. lia. }
        assert (E' : (buf ++ take n c) ++ (x :: d) ++ concat cs = l ++ LF :: rest).
        { rewrite <- Ed, <- app_assoc, (app_assoc (take n c)), take_drop. exact E. }
        assert (Hi : exists b, buf ++ take n c = l ++ LF :: b /\ b ++ (x :: d) ++ concat cs = rest).
        { assert (Ht : take (length l) (buf ++ take n c) = l).
          { transitivity (take (length l) (l ++ LF :: rest)); [|apply take_app_alt; reflexivity]. rewrite <- E', (take_app_le (buf ++ take n c)) by lia. reflexivity. }
          assert (Hd : drop (length l) (buf ++ take n c) ++ (x :: d) ++ concat cs = LF :: rest).
          { transitivity (drop (length l) (l ++ LF :: rest)); [|apply drop_app_alt; reflexivity]. rewrite <- E', (drop_app_le (buf ++ take n c)) by lia. reflexivity. }
          destruct (drop (length l) (buf ++ take n c)) as [|y b] eqn:Edr.
          { assert (length (drop (length l) (buf ++ take n c)) = 0%nat) by (rewrite Edr; reflexivity). rewrite drop_length in H. lia. }
          injection Hd as -> Hd. exists b. split; [|exact Hd]. rewrite <- Edr, <- Ht at 1. symmetry. rewrite Ht. rewrite <- Ht at 1. rewrite take_drop. reflexivity. }
        destruct Hi as (b & Eb & Hr). rewrite Eb, lf_index_app by exact Hl. eexists. split; [|split].
        -- rewrite take_line. reflexivity.
        -- unfold bytes_left. cbn [r_buf r_src concat]. rewrite drop_line. exact Hr.
        -- unfold wf. cbn [r_buf]. rewrite drop_length, <- Eb, Hlen. lia.
Qed.
Lemma ends_with_app b l x : ends_with b (l ++ [x]) = Byte.eqb x b.
Proof. unfold ends_with. rewrite rev_app_distr. reflexivity. Qed.

Lemma read_line_line s l rest : bytes_left s = l ++ LF :: rest -> LF ∉ l -> (length l < bufsize)%nat -> wf s ->
  exists s', read_line s = ROk (strip l) s' /\ bytes_left s' = rest /\ wf s'.
Proof.
  intros E Hl Hn Hw. destruct (read_slice_line _ _ _ _ E Hl Hn Hw) as (s' & Es & Hs & Hw'). exists s'. split; [|auto].
  unfold read_line. rewrite Es. destruct (l ++ [LF]) as [|x y] eqn:El; [destruct l; discriminate|]. rewrite <- El, ends_with_app, removelast_last. reflexivity.
Qed.
Lemma read_line_crlf s l rest : bytes_left s = l ++ crlf ++ rest -> LF ∉ l -> (length l + 1 < bufsize)%nat -> wf s ->
  exists s', read_line s = ROk l s' /\ bytes_left s' = rest /\ wf s'.
Proof.
  intros E Hl Hn Hw. destruct (read_line_line s (l ++ [CR]) rest) as (s' & H1 & H2); auto.
  - rewrite E, <- app_assoc. reflexivity.
  - intros Hin. apply elem_of_app in Hin as [Hin|Hin]; [auto|]. apply elem_of_list_singleton in Hin. discriminate Hin.
  - rewrite app_length. cbn. lia.
  - exists s'. split; [|auto]. rewrite H1. unfold strip. rewrite ends_with_app, removelast_last. reflexivity.
Qed.
(** everything in the buffer *)
Lemma read_line_buf l rest src : LF ∉ l -> read_line (Rd (l ++ crlf ++ rest) src) = ROk l (Rd rest src).
Proof.
  intros Hl. unfold read_line. cbn [r_buf r_src]. replace (l ++ crlf ++ rest) with ((l ++ [CR]) ++ LF :: rest) by (rewrite <- app_assoc; reflexivity).
  assert (Hl' : LF ∉ l ++ [CR]). { intros Hin. apply elem_of_app in Hin as [Hin|Hin]; [auto|]. apply elem_of_list_singleton in Hin. discriminate Hin. }
  assert (Es : read_slice ((l ++ [CR]) ++ LF :: rest) src = ((l ++ [CR]) ++ [LF], SFound, Rd rest src)).
  { destruct src; cbn [read_slice]; rewrite lf_index_app by exact Hl';
    rewrite take_line, drop_line; reflexivity. }
  rewrite Es. destruct ((l ++ [CR]) ++ [LF]) as [|x y] eqn:El; [destruct l; discriminate|]. rewrite <- El, ends_with_app, removelast_last.
  replace (Byte.eqb LF LF) with true by reflexivity. cbn zeta. rewrite ends_with_app, removelast_last. reflexivity.
Qed.

(** ** single bytes *)
Lemma src_read_spec n cs : (0 < n)%nat -> match src_read n cs with
  | None => concat cs = []
  | Some (d, cs') => d <> [] /\ concat cs = d ++ concat cs' /\ (length d <= n)%nat
  end.
Proof.
  intros Hn. induction cs as [|c cs IH]; cbn [src_read concat]; [reflexivity|]. destruct c as [|b c]; [exact IH|].
  split; [destruct n; [lia|discriminate]|]. split.
  - destruct (drop n (b :: c)) as [|x d] eqn:Ed.
    + rewrite <- (take_drop n (b :: c)) at 1. rewrite Ed, app_nil_r. reflexivity.
    + cbn [concat]. rewrite <- Ed, app_assoc, take_drop. reflexivity.
  - rewrite take_length. lia.
Qed.
Lemma read_byte_spec s : wf s -> match bytes_left s with
  | [] => exists s', read_byte s = RErr EEof s' /\ bytes_left s' = []
  | b :: rest => exists s', read_byte s = ROk b s' /\ bytes_left s' = rest /\ wf s'
  end.
Proof.
  intros Hw. unfold bytes_left, read_byte, wf in *. destruct s as [[|b buf] src]; cbn [r_buf r_src app] in *.
  - pose proof (src_read_spec bufsize src bufsize_pos) as H. destruct (src_read bufsize src) as [[[|b d] cs]|].
    + destruct H; congruence.
    + destruct H as (_ & -> & Hl). cbn [app]. eexists. split; [reflexivity|]. cbn [r_buf r_src]. split; [reflexivity|]. cbn in Hl. lia.
    + rewrite H. eexists. split; reflexivity.
  - eexists. split; [reflexivity|]. cbn [r_buf r_src]. split; [reflexivity|]. cbn in Hw. lia.
Qed.

(** ** the grammar *)
Scheme wire_ind2 := Induction for wire Sort Prop
with wires_ind2 := Induction for wires Sort Prop.
Combined Scheme wire_wires from wire_ind2, wires_ind2.

Lemma line_split l1 l2 r1 r2 : CR ∉ l1 -> CR ∉ l2 -> l1 ++ crlf ++ r1 = l2 ++ crlf ++ r2 -> l1 = l2 /\ r1 = r2.
Proof.
  revert l2. induction l1 as [|b l1 IH]; intros [|c l2] H1 H2 E; cbn in E.
  - injection E as E. auto.
  - injection E as Ec _. exfalso. apply H2. change (CR ∈ c :: l2). rewrite <- Ec. left.
  - injection E as Ec _. exfalso. apply H1. change (CR ∈ b :: l1). rewrite Ec. left.
  - apply not_elem_of_cons in H1 as [_ H1], H2 as [_ H2]. injection E as -> E. destruct (IH l2 H1 H2 E) as [-> ->]. auto.
Qed.
Lemma num_nat_inj n1 n2 d : num_nat n1 d -> num_nat n2 d -> n1 = n2.
Proof. intros [_ <-] [_ <-]. reflexivity. Qed.
Lemma digits_not_minus r : ~ digits (z2b 45 :: r).
Proof. intros [_ H]. inversion H as [|? ? Hx _]. vm_compute in Hx. destruct Hx; congruence. Qed.
Lemma num_int_inj n1 n2 d : num_int n1 d -> num_int n2 d -> n1 = n2.
Proof.
  intros [[H1 <-]|(r & -> & H1 & <-)] [[H2 <-]|(r2 & E & H2 & <-)].
  - reflexivity.
  - subst d. destruct (digits_not_minus _ H1).
  - destruct (digits_not_minus _ H2).
  - injection E as <-. reflexivity.
Qed.
Lemma num_nat_not_m1 n : ~ num_nat n (bs "-1").
Proof. intros [H _]. apply (digits_not_minus _ H). Qed.
Lemma bytes_split n1 n2 (s1 s2 r1 r2 : gostr) : Z.of_nat (length s1) = n1 -> Z.of_nat (length s2) = n2 -> n1 = n2 -> s1 ++ r1 = s2 ++ r2 -> s1 = s2 /\ r1 = r2.
Proof. intros <- <- H E. apply app_inj_1 in E; [auto|lia]. Qed.

Lemma wire_det :
  (forall m1 s1, wire m1 s1 -> forall m2 s2 r1 r2, wire m2 s2 -> s1 ++ r1 = s2 ++ r2 -> m1 = m2 /\ s1 = s2 /\ r1 = r2) /\
  (forall l1 s1, wires l1 s1 -> forall l2 s2 r1 r2, wires l2 s2 -> length l1 = length l2 -> s1 ++ r1 = s2 ++ r2 -> l1 = l2 /\ s1 = s2 /\ r1 = r2).
Proof.
  apply wire_wires.
  - intros m2 s2 r1 r2 H E. destruct H as [|d s Hd|s Hs|s Hs|n d Hd Hn|d l s Hd Hs]; rewrite <- ?app_assoc in E; cbn [bs list_byte_of_string app] in E; try discriminate.
    + injection E as E. auto.
    + injection E as E. exfalso. change (bs "-1" ++ crlf ++ r1 = d ++ crlf ++ s ++ crlf ++ r2) in E. 
      apply line_split in E as [E _]; [|intros H; repeat (apply elem_of_cons in H as [H|H]; [discriminate|]); inversion H|eapply num_nat_line; eauto].
      subst d. eapply num_nat_not_m1; eauto.
  - intros d1 p1 Hd1 m2 s2 r1 r2 H E. destruct H as [|d s Hd|s Hs|s Hs|n d Hd Hn|d l s Hd Hs]; rewrite <- ?app_assoc in E; cbn [bs list_byte_of_string app] in E; try discriminate.
    + injection E as E. exfalso. change (d1 ++ crlf ++ p1 ++ crlf ++ r1 = bs "-1" ++ crlf ++ r2) in E. 
      apply line_split in E as [E _]; [|eapply num_nat_line; eauto|intros H; repeat (apply elem_of_cons in H as [H|H]; [discriminate|]); inversion H].
      subst d1. eapply num_nat_not_m1; eauto.
    + injection E as E. apply line_split in E as [<- E]; [|eapply num_nat_line; eauto|eapply num_nat_line; eauto].
      destruct (bytes_split _ _ p1 s _ _ eq_refl eq_refl (num_nat_inj _ _ _ Hd1 Hd) E) as [<- E']. injection E' as <-. auto.
  - intros p1 Hp1 m2 s2 r1 r2 H E. destruct H as [|d s Hd|s Hs|s Hs|n d Hd Hn|d l s Hd Hs]; rewrite <- ?app_assoc in E; cbn [bs list_byte_of_string app] in E; try discriminate.
    injection E as E. apply line_split in E as [<- <-]; [auto|apply Hp1|apply Hs].
  - intros p1 Hp1 m2 s2 r1 r2 H E. destruct H as [|d s Hd|s Hs|s Hs|n d Hd Hn|d l s Hd Hs]; rewrite <- ?app_assoc in E; cbn [bs list_byte_of_string app] in E; try discriminate.
    injection E as E. apply line_split in E as [<- <-]; [auto|apply Hp1|apply Hs].
  - intros n1 d1 Hd1 Hn1 m2 s2 r1 r2 H E. destruct H as [|d s Hd|s Hs|s Hs|n d Hd Hn|d l s Hd Hs]; rewrite <- ?app_assoc in E; cbn [bs list_byte_of_string app] in E; try discriminate.
    injection E as E. apply line_split in E as [<- <-]; [|eapply num_line; eauto|eapply num_line; eauto].
    rewrite (num_int_inj _ _ _ Hd1 Hd). auto.
  - intros d1 l1 p1 Hd1 Hl1 IH m2 s2 r1 r2 H E. destruct H as [|d s Hd|s Hs|s Hs|n d Hd Hn|d l s Hd Hs]; rewrite <- ?app_assoc in E; cbn [bs list_byte_of_string app] in E; try discriminate.
    injection E as E. apply line_split in E as [<- E]; [|eapply num_nat_line; eauto|eapply num_nat_line; eauto].
    pose proof (num_nat_inj _ _ _ Hd1 Hd) as Hlen. apply (IH l s r1 r2) in E as (<- & <- & <-); auto. lia.
  - intros l2 s2 r1 r2 H Hl E. destruct H; [auto|discriminate].
  - intros m l s t Hm IHm Hl IHl l2 s2 r1 r2 H Hlen E. destruct H as [|m2 l2 s2 t2 Hm2 Hl2]; [discriminate|].
    rewrite <- !app_assoc in E. apply (IHm m2 s2) in E as (<- & <- & E); auto. apply (IHl l2 t2) in E as (<- & <- & E); auto.
Qed.

(** nested induction *)
Lemma msg_ind2 (P : msg -> Prop) : P MNil -> (forall s, P (MBulk s)) -> (forall s, P (MSimple s)) -> (forall s, P (MError s)) -> (forall z, P (MInt z)) ->
  (forall l, Forall P l -> P (MArr l)) -> forall m, P m.
Proof.
  intros H1 H2 H3 H4 H5 H6. fix IH 1. intros [|s|s|s|z|l]; [exact H1|apply H2|apply H3|apply H4|apply H5|apply H6]. induction l as [|m l IHl]; constructor; [apply IH|exact IHl].
Qed.
Lemma encodable_arr l : encodable (MArr l) <-> Forall encodable l.
Proof. cbn. induction l as [|m l IH]; cbn; [split; constructor|]. rewrite IH. split; [intros []; constructor; auto|intros H; inversion H; auto]. Qed.
Lemma wire_serialize m : encodable m -> wire m (serialize m).
Proof.
  induction m as [|s|s|s|z|l IH] using msg_ind2; intros H.
  - exact w_nil.
  - cbn [serialize]. rewrite <- !app_assoc. apply w_bulk, num_nat_itoa, zlen_nonneg.
  - apply w_simple, H.
  - apply w_error, H.
  - apply w_int; [apply num_int_itoa|exact H].
  - cbn [serialize]. rewrite <- !app_assoc. apply w_arr; [apply num_nat_itoa, zlen_nonneg|].
    apply encodable_arr in H. induction l as [|m l IHl]; cbn; [constructor|]. inversion IH. inversion H. constructor; auto.
Qed.
Lemma wire_long m s : wire m s -> (3 <= length s)%nat.
Proof. intros H. destruct H; cbn; rewrite ?app_length; cbn; try lia; rewrite ?app_length; cbn; lia. Qed.

(** ** reading a message that is in the buffer *)
Lemma read_num_buf n d rest src : num_int n d -> int64 n -> read_num (Rd (d ++ crlf ++ rest) src) = ROk n (Rd rest src).
Proof. intros H Hn. unfold read_num. rewrite read_line_buf by apply (num_line n d H). cbn [rbind]. rewrite (atoi_num n d H Hn). reflexivity. Qed.
Lemma read_some_buf (s rest : gostr) src : read_some (length s) (Rd (s ++ rest) src) = ROk s (Rd rest src).
Proof.
  unfold read_some. destruct s as [|b s]; [reflexivity|]. cbn [r_buf app length]. cbn [length take drop]. rewrite take_app_alt, drop_app_alt by reflexivity. reflexivity.
Qed.
Lemma padded_full s : padded (length s) s = s.
Proof. unfold padded. rewrite Nat.sub_diag. apply app_nil_r. Qed.
Definition fits (s : gostr) : Prop := Z.of_nat (length s) <= max_alloc.
Lemma read_bulk_buf s rest src : fits s -> read_bulk (Z.of_nat (length s)) (Rd (s ++ crlf ++ rest) src) = ROk (MBulk s) (Rd rest src).
Proof.
  intros H. unfold read_bulk, make_ok. unfold fits in H. replace ((0 <=? Z.of_nat (length s)) && (Z.of_nat (length s) <=? max_alloc)) with true by lia.
  rewrite Nat2Z.id, read_some_buf. cbn [rbind]. change (crlf ++ rest) with ([] ++ crlf ++ rest). rewrite read_line_buf by (intros X; inversion X). cbn [rbind]. rewrite padded_full. reflexivity.
Qed.
Lemma rm_bulk f r src : read_msg (S f) (Rd (bs "$" ++ r) src) = rbind (read_num (Rd r src)) (fun n s2 => if n =? -1 then ROk MNil s2 else read_bulk n s2).
Proof. reflexivity. Qed.
Lemma rm_simple f r src : read_msg (S f) (Rd (bs "+" ++ r) src) = rbind (read_line (Rd r src)) (fun l s2 => ROk (MSimple l) s2).
Proof. reflexivity. Qed.
Lemma rm_error f r src : read_msg (S f) (Rd (bs "-" ++ r) src) = rbind (read_line (Rd r src)) (fun l s2 => ROk (MError l) s2).
Proof. reflexivity. Qed.
Lemma rm_int f r src : read_msg (S f) (Rd (bs ":" ++ r) src) = rbind (read_num (Rd r src)) (fun n s2 => ROk (MInt n) s2).
Proof. reflexivity. Qed.
Lemma rm_arr f r src : read_msg (S f) (Rd (bs "*" ++ r) src) = rbind (read_num (Rd r src)) (fun n s2 => rbind (read_n f n s2) (fun l s3 => ROk (MArr l) s3)).
Proof. reflexivity. Qed.
Lemma read_wire :
  (forall m s, wire m s -> forall fuel rest src, (length s <= fuel)%nat -> fits s -> read_msg fuel (Rd (s ++ rest) src) = ROk m (Rd rest src)) /\
  (forall l s, wires l s -> forall fuel rest src, (length s < fuel)%nat -> fits s -> read_n fuel (Z.of_nat (length l)) (Rd (s ++ rest) src) = ROk l (Rd rest src)).
Proof.
  assert (Hf : forall (s : gostr), fits s -> int64 (Z.of_nat (length s))) by (unfold fits, max_alloc, int64; lia).
  assert (Hlen : forall l s, wires l s -> (length l <= length s)%nat).
  { induction 1 as [|m l s t Hm Hl IH]; cbn; [lia|]. rewrite app_length. apply wire_long in Hm. lia. }
  apply wire_wires.
  - intros [|f] rest src Hl Hs; [cbn in Hl; lia|]. rewrite <- app_assoc. change (bs "$-1" ++ crlf ++ rest) with (bs "$" ++ bs "-1" ++ crlf ++ rest). rewrite rm_bulk, (read_num_buf (-1)); [reflexivity| |unfold int64; lia].
    right. exists (bs "1"). split; [reflexivity|]. split; [|reflexivity]. split; [discriminate|]. repeat constructor; vm_compute; congruence.
  - intros d s Hd [|f] rest src Hl Hs; [cbn in Hl; lia|]. rewrite <- !app_assoc, rm_bulk. assert (Hs' : fits s) by (unfold fits in *; rewrite !app_length in Hs; lia).
    rewrite (read_num_buf (Z.of_nat (length s))); [|left; exact Hd|auto]. cbn [rbind]. replace (Z.of_nat (length s) =? -1) with false by lia. apply read_bulk_buf, Hs'.
  - intros s Hs [|f] rest src Hl _; [cbn in Hl; lia|]. rewrite <- !app_assoc, rm_simple.
    rewrite read_line_buf by apply Hs. reflexivity.
  - intros s Hs [|f] rest src Hl _; [cbn in Hl; lia|]. rewrite <- !app_assoc, rm_error.
    rewrite read_line_buf by apply Hs. reflexivity.
  - intros n d Hd Hn [|f] rest src Hl _; [cbn in Hl; lia|]. rewrite <- !app_assoc, rm_int.
   
    rewrite (read_num_buf n) by auto. reflexivity.
  - intros d l s Hd Hl IH [|f] rest src Hf' Hs; [cbn in Hf'; lia|]. rewrite <- !app_assoc, rm_arr. unfold fits in Hs. rewrite !app_length in Hf', Hs. assert (length (bs "*") = 1%nat) by reflexivity. assert (length crlf = 2%nat) by reflexivity.
   
    rewrite (read_num_buf (Z.of_nat (length l))); [|left; exact Hd|unfold int64; pose proof (Hlen _ _ Hl); unfold max_alloc in Hs; lia]. cbn [rbind].
    rewrite IH; [reflexivity|lia|unfold fits; lia].
  - intros [|f] rest src Hf' _; [lia|]. reflexivity.
  - intros m l s t Hm IHm Hl IHl [|f] rest src Hf' Hs; [lia|]. cbn [read_n length]. destruct (Z.leb_spec (Z.of_nat (S (length l))) 0); [lia|].
    pose proof (wire_long _ _ Hm). unfold fits in *. rewrite app_length in *. rewrite <- app_assoc, IHm by lia. cbn [rbind].
    replace (Z.of_nat (S (length l)) - 1) with (Z.of_nat (length l)) by lia. rewrite IHl by lia. reflexivity.
Qed.

(** ** reading under any chunking *)
Lemma dec_aux_len fuel : forall n acc, (length (dec_aux fuel n acc) <= fuel + 1 + length acc)%nat.
Proof. induction fuel as [|f IH]; intros n acc; cbn [dec_aux]; [cbn; lia|]. destruct (n <? 10); [cbn; lia|]. etransitivity; [apply IH|]. cbn. lia. Qed.
Lemma itoa_len n : int64 n -> (length (itoa n) <= 65)%nat.
Proof.
  unfold int64. intros H. assert (Hd : forall k, 0 <= k <= 2 ^ 63 -> (length (dec k) <= 64)%nat).
  { intros k Hk. unfold dec. etransitivity; [apply dec_aux_len|]. cbn [length].
    assert (Z.log2 k <= 63). { destruct (Z.eq_dec k 0); [subst; cbn; lia|]. transitivity (Z.log2 (2 ^ 63)); [apply Z.log2_le_mono; lia|]. rewrite Z.log2_pow2; lia. } lia. }
  unfold itoa. destruct (Z.ltb_spec n 0); [cbn [length]; specialize (Hd (- n)); lia|]. specialize (Hd n). lia.
Qed.
Lemma bufsize_val : Z.of_nat bufsize = 4096.
Proof. Transparent bufsize. unfold bufsize. rewrite Z2Nat.id; lia. Opaque bufsize. Qed.
Lemma itoa_fits n : int64 n -> (length (itoa n) + 1 < bufsize)%nat.
Proof. intros H. apply itoa_len in H. pose proof bufsize_val. lia. Qed.
Lemma read_num_any s n rest : bytes_left s = itoa n ++ crlf ++ rest -> int64 n -> wf s ->
  exists s', read_num s = ROk n s' /\ bytes_left s' = rest /\ wf s'.
Proof.
  intros E Hn Hw. destruct (read_line_crlf s _ _ E) as (s' & H1 & H2); auto.
  - apply (num_line n), num_int_itoa.
  - apply itoa_fits, Hn.
  - exists s'. split; [|exact H2]. unfold read_num. rewrite H1. cbn [rbind]. rewrite (atoi_num n); [reflexivity|apply num_int_itoa|exact Hn].
Qed.
Lemma read_some_one s b rest : bytes_left s = b :: rest -> wf s ->
  exists s', read_some 1 s = ROk [b] s' /\ bytes_left s' = rest /\ wf s'.
Proof.
  intros E Hw. unfold bytes_left, wf in *. destruct s as [[|x buf] src]; cbn [r_buf r_src app] in *; unfold read_some; cbn [r_buf r_src].
  - destruct (Nat.leb_spec bufsize 1) as [Hle|_]; [pose proof bufsize_val; lia|].
    pose proof (src_read_spec bufsize src bufsize_pos) as H. destruct (src_read bufsize src) as [[[|y d] cs]|]; [destruct H; congruence| |congruence].
    destruct H as (_ & Hc & Hl). rewrite Hc in E. injection E as -> E. eexists. split; [reflexivity|]. cbn [r_buf r_src drop length] in *. rewrite ?drop_0. split; [exact E|lia].
  - injection E as -> <-. eexists. split; [reflexivity|]. cbn [r_buf r_src drop length] in *. rewrite ?drop_0. split; [reflexivity|lia].
Qed.
Fixpoint steady (m : msg) : Prop :=
  match m with
  | MNil => True
  | MBulk s => (length s <= 1)%nat
  | MSimple s | MError s => one_line s /\ Z.of_nat (length s) <= 4094
  | MInt n => int64 n
  | MArr l => int64 (zlen l) /\ fold_right (fun m P => steady m /\ P) True l
  end.
Lemma rm_any f s b rest : bytes_left s = b :: rest -> wf s -> exists s', bytes_left s' = rest /\ wf s' /\
  read_msg (S f) s =
    if Byte.eqb b (z2b 36) then rbind (read_num s') (fun n s2 => if n =? -1 then ROk MNil s2 else read_bulk n s2)
    else if Byte.eqb b (z2b 43) then rbind (read_line s') (fun l s2 => ROk (MSimple l) s2)
    else if Byte.eqb b (z2b 45) then rbind (read_line s') (fun l s2 => ROk (MError l) s2)
    else if Byte.eqb b (z2b 58) then rbind (read_num s') (fun n s2 => ROk (MInt n) s2)
    else if Byte.eqb b (z2b 42) then rbind (read_num s') (fun n s2 => rbind (read_n f n s2) (fun l s3 => ROk (MArr l) s3))
    else RErr (EProto b) s'.
Proof.
  intros E Hw. pose proof (read_byte_spec s Hw) as H. rewrite E in H. destruct H as (s' & H1 & H2 & H3). exists s'. split; [exact H2|]. split; [exact H3|].
  cbn [read_msg]. rewrite H1. reflexivity.
Qed.
Lemma read_steady m : steady m -> forall fuel s rest, bytes_left s = serialize m ++ rest -> wf s -> (length (serialize m) <= fuel)%nat ->
  exists s', read_msg fuel s = ROk m s' /\ bytes_left s' = rest /\ wf s'.
Proof.
  induction m as [|t|t|t|z|l IH] using msg_ind2; intros Hm [|f] s rest E Hw Hf; try (cbn in Hf; rewrite ?app_length in Hf; cbn in Hf; lia).
  - cbn [serialize] in E. rewrite <- !app_assoc in E. change (bs "$-1" ++ eof ++ rest) with (z2b 36 :: itoa (-1) ++ crlf ++ rest) in E.
    destruct (rm_any f s _ _ E Hw) as (s1 & E1 & W1 & ->). change (Byte.eqb (z2b 36) (z2b 36)) with true. cbn iota.
    destruct (read_num_any s1 (-1) _ E1) as (s2 & -> & E2 & W2); [unfold int64; lia|exact W1|]. eexists. split; [reflexivity|]. auto.
  - cbn [serialize] in E. rewrite <- !app_assoc in E. change (bs "$" ++ ?x) with (z2b 36 :: x) in E. change eof with crlf in E.
    destruct (rm_any f s _ _ E Hw) as (s1 & E1 & W1 & ->). change (Byte.eqb (z2b 36) (z2b 36)) with true. cbn iota. cbn [steady] in Hm.
    destruct (read_num_any s1 _ _ E1) as (s2 & -> & E2 & W2); [unfold int64, zlen; lia|exact W1|]. cbn [rbind].
    destruct (zlen t =? -1) eqn:Em; [unfold zlen in Em; lia|]. unfold read_bulk, make_ok. replace ((0 <=? zlen t) && (zlen t <=? max_alloc)) with true by (unfold max_alloc, zlen; lia).
    unfold zlen. rewrite Nat2Z.id.
    assert (Hs : exists s3, read_some (length t) s2 = ROk t s3 /\ bytes_left s3 = crlf ++ rest /\ wf s3).
    { destruct t as [|b [|c t]]; [|apply read_some_one; auto|cbn in Hm; lia]. exists s2. auto. }
    destruct Hs as (s3 & -> & E3 & W3). cbn [rbind]. destruct (read_line_crlf s3 [] rest E3) as (s4 & -> & E4 & W4); [intros X; inversion X|pose proof bufsize_val; cbn; lia|exact W3|].
    cbn [rbind]. rewrite padded_full. eauto.
  - cbn [serialize] in E. rewrite <- !app_assoc in E. change (bs "+" ++ ?x) with (z2b 43 :: x) in E. change eof with crlf in E. destruct Hm as [Hm1 Hm2].
    destruct (rm_any f s _ _ E Hw) as (s1 & E1 & W1 & ->). change (Byte.eqb (z2b 43) (z2b 36)) with false. change (Byte.eqb (z2b 43) (z2b 43)) with true. cbn iota.
    destruct (read_line_crlf s1 _ _ E1) as (s2 & -> & E2 & W2); [apply Hm1|pose proof bufsize_val; lia|exact W1|]. cbn [rbind]. eauto.
  - cbn [serialize] in E. rewrite <- !app_assoc in E. change (bs "-" ++ ?x) with (z2b 45 :: x) in E. change eof with crlf in E. destruct Hm as [Hm1 Hm2].
    destruct (rm_any f s _ _ E Hw) as (s1 & E1 & W1 & ->). change (Byte.eqb (z2b 45) (z2b 36)) with false. change (Byte.eqb (z2b 45) (z2b 43)) with false. change (Byte.eqb (z2b 45) (z2b 45)) with true. cbn iota.
    destruct (read_line_crlf s1 _ _ E1) as (s2 & -> & E2 & W2); [apply Hm1|pose proof bufsize_val; lia|exact W1|]. cbn [rbind]. eauto.
  - cbn [serialize] in E. rewrite <- !app_assoc in E. change (bs ":" ++ ?x) with (z2b 58 :: x) in E. change eof with crlf in E.
    destruct (rm_any f s _ _ E Hw) as (s1 & E1 & W1 & ->). change (Byte.eqb (z2b 58) (z2b 36)) with false. change (Byte.eqb (z2b 58) (z2b 43)) with false. change (Byte.eqb (z2b 58) (z2b 45)) with false. change (Byte.eqb (z2b 58) (z2b 58)) with true. cbn iota.
    destruct (read_num_any s1 _ _ E1) as (s2 & -> & E2 & W2); auto. cbn [rbind]. eauto.
  - cbn [serialize] in E, Hf. rewrite <- !app_assoc in E. change (bs "*" ++ ?x) with (z2b 42 :: x) in E. change eof with crlf in E. destruct Hm as [Hlen Hm].
    destruct (rm_any f s _ _ E Hw) as (s1 & E1 & W1 & ->). change (Byte.eqb (z2b 42) (z2b 36)) with false. change (Byte.eqb (z2b 42) (z2b 43)) with false. change (Byte.eqb (z2b 42) (z2b 45)) with false. change (Byte.eqb (z2b 42) (z2b 58)) with false. change (Byte.eqb (z2b 42) (z2b 42)) with true. cbn iota.
    destruct (read_num_any s1 _ _ E1) as (s2 & -> & E2 & W2); auto. cbn [rbind].
    assert (Hf2 : (length (concat (map serialize l)) < f)%nat). { rewrite !app_length in Hf. assert (length (bs "*") = 1%nat) by reflexivity. assert (length eof = 2%nat) by reflexivity. lia. }
    clear E E1 Hf Hlen. assert (Hn : exists s3, read_n f (zlen l) s2 = ROk l s3 /\ bytes_left s3 = rest /\ wf s3).
    { clear s Hw s1 W1. revert s2 f E2 W2 Hf2. induction l as [|m l IHl]; intros s2 f E2 W2 Hf2.
      - destruct f as [|f]; [cbn in Hf2; lia|]. cbn. cbn in E2. eauto.
      - destruct f as [|f]; [lia|]. cbn [read_n]. destruct (Z.leb_spec (zlen (m :: l)) 0) as [H0|_]; [rewrite zlen_cons in H0; pose proof (zlen_nonneg l); lia|].
        cbn [map concat] in E2, Hf2. rewrite <- app_assoc in E2. rewrite app_length in Hf2. inversion IH as [|? ? IHm IHl']; subst. cbn [fold_right] in Hm. destruct Hm as [Hm1 Hm2].
        assert (1 <= length (serialize m))%nat by (destruct m; cbn; lia).
        destruct (IHm Hm1 f s2 _ E2 W2) as (s3 & -> & E3 & W3); [lia|]. cbn [rbind]. replace (zlen (m :: l) - 1) with (zlen l) by (rewrite zlen_cons; lia).
        destruct (IHl IHl' Hm2 s3 f E3 W3) as (s4 & -> & E4 & W4); [lia|]. cbn [rbind]. eauto. }
    destruct Hn as (s3 & -> & E3 & W3). cbn [rbind]. eauto.
Qed.

(** ** what every read consumes *)
Lemma read_slice_spec cs : forall buf, (length buf <= bufsize)%nat ->
  let '(line, e, s') := read_slice buf cs in
  buf ++ concat cs = line ++ bytes_left s' /\ wf s' /\
  match e with
  | SFound => exists l, line = l ++ [LF] /\ LF ∉ l
  | SEof => LF ∉ line /\ bytes_left s' = []
  | SFull => LF ∉ line /\ (bufsize <= length line)%nat /\ r_buf s' = []
  end.
Proof.
  induction cs as [|c cs IH]; intros buf Hb; cbn [read_slice].
  - destruct (lf_index buf) as [i|] eqn:Ei.
    + apply lf_index_some in Ei as (a & b & -> & <- & Ha). rewrite take_line, drop_line. unfold bytes_left, wf. cbn [r_buf r_src concat].
      rewrite <- !app_assoc. split; [reflexivity|]. split; [rewrite app_length in Hb; cbn in Hb; lia|eauto].
    + apply lf_index_none in Ei. destruct (Nat.leb_spec bufsize (length buf)); unfold bytes_left, wf; cbn [r_buf r_src concat length]; rewrite ?app_nil_r; repeat split; auto; lia.
  - destruct (lf_index buf) as [i|] eqn:Ei.
    + apply lf_index_some in Ei as (a & b & -> & <- & Ha). rewrite take_line, drop_line. unfold bytes_left, wf. cbn [r_buf r_src concat].
      rewrite <- !app_assoc. split; [reflexivity|]. split; [rewrite app_length in Hb; cbn in Hb; lia|eauto].
    + apply lf_index_none in Ei. destruct (Nat.leb_spec bufsize (length buf)) as [|Hlt].
      { unfold bytes_left, wf; cbn [r_buf r_src concat length]. repeat split; auto; lia. }
      remember (bufsize - length buf)%nat as n eqn:Hn. destruct (drop n c) as [|x d] eqn:Ed.
      * assert (Ht : take n c = c). { rewrite <- (take_drop n c) at 2. rewrite Ed, app_nil_r. reflexivity. }
        specialize (IH (buf ++ take n c)). destruct (read_slice (buf ++ take n c) cs) as [[line e] s']. rewrite Ht in *. cbn [concat]. rewrite app_assoc. apply IH.
        rewrite app_length. assert (length (take n c) = length c) by (rewrite Ht; reflexivity). rewrite take_length in H. lia.
      * assert (Hlen : length (buf ++ take n c) = bufsize).
        { rewrite app_length, take_length. assert (length (drop n c) = S (length d)) by (rewrite Ed; reflexivity). rewrite drop_length in H. lia. }
        assert (E' : buf ++ c ++ concat cs = (buf ++ take n c) ++ (x :: d) ++ concat cs).
        { rewrite <- Ed, <- app_assoc, (app_assoc (take n c)), take_drop. reflexivity. }
        cbn [concat]. destruct (lf_index (buf ++ take n c)) as [i|] eqn:Ei2.
        -- apply lf_index_some in Ei2 as (a & b & Eab & <- & Ha). rewrite E', Eab, take_line, drop_line. unfold bytes_left, wf. cbn [r_buf r_src concat].
           rewrite <- !app_assoc. split; [reflexivity|]. split; [rewrite Eab, app_length in Hlen; cbn in Hlen; lia|eauto].
        -- apply lf_index_none in Ei2. rewrite E'. unfold bytes_left, wf. cbn [r_buf r_src concat length]. repeat split; auto; lia.
Qed.
Lemma ends_with_true b l : ends_with b l = true -> exists k, l = k ++ [b].
Proof.
  unfold ends_with. destruct (rev l) as [|x r] eqn:E; [discriminate|]. intros H. apply byte_eqb_eq in H. subst x. exists (rev r).
  rewrite <- (rev_involutive l), E. reflexivity.
Qed.
Lemma read_line_spec s : wf s -> match read_line s with
  | ROk l s' => exists mid, bytes_left s = l ++ mid ++ bytes_left s' /\ LF ∉ l /\ l ++ mid <> [] /\ wf s'
  | RErr e s' => e = EEof /\ bytes_left s = [] /\ bytes_left s' = [] /\ wf s'
  | _ => False
  end.
Proof.
  intros Hw. unfold read_line. pose proof (read_slice_spec (r_src s) (r_buf s) Hw) as H. destruct (read_slice (r_buf s) (r_src s)) as [[line e] s'].
  destruct H as (E & W & He). fold (bytes_left s) in E.
  assert (Hgen : line <> [] -> match (if ends_with LF line then let l := removelast line in ROk (if ends_with CR l then removelast l else l) s' else ROk line s') with
    | ROk l s' => exists mid, bytes_left s = l ++ mid ++ bytes_left s' /\ (e <> SFull -> LF ∉ l) /\ l ++ mid <> [] /\ wf s' | _ => False end).
  { intros Hne. destruct (ends_with LF line) eqn:El.
    - apply ends_with_true in El as [k Ek]. subst line. rewrite removelast_last. cbn zeta.
      assert (HkLF : e <> SFull -> LF ∉ k). { intros Hx. destruct e; [destruct He as (l & El & Hl)|destruct He as [He _]|congruence].
        - apply app_inj_2 in El as [-> _]; auto.
        - exfalso. apply He. apply elem_of_app. right. left. }
      destruct (ends_with CR k) eqn:Ec.
      + apply ends_with_true in Ec as [k2 ->]. rewrite removelast_last. exists [CR; LF]. rewrite E, <- !app_assoc. split; [reflexivity|]. split; [|split; [destruct k2; discriminate|exact W]].
        intros Hx Hin. apply (HkLF Hx), elem_of_app. auto.
      + exists [LF]. rewrite E, <- !app_assoc. split; [reflexivity|]. split; [exact HkLF|split; [destruct k; discriminate|exact W]].
    - exists []. rewrite E, !app_nil_r. split; [reflexivity|]. split; [|auto]. intros Hx. destruct e; [|apply He|congruence].
      destruct He as (l & -> & _). rewrite ends_with_app in El. discriminate El. }
  assert (Hplus : e <> SFull -> match match line with [] => RErr EEof s' | _ => if ends_with LF line then let l := removelast line in ROk (if ends_with CR l then removelast l else l) s' else ROk line s' end with
    | ROk l s' => exists mid, bytes_left s = l ++ mid ++ bytes_left s' /\ LF ∉ l /\ l ++ mid <> [] /\ wf s'
    | RErr e s' => e = EEof /\ bytes_left s = [] /\ bytes_left s' = [] /\ wf s'
    | _ => False end).
  { intros Hx. destruct line as [|b line].
    - destruct e; [destruct He as (l & El & _); destruct l; discriminate| |congruence]. destruct He as [_ He]. rewrite E, He. auto.
    - specialize (Hgen ltac:(discriminate)). destruct (ends_with LF (b :: line)); cbn zeta in *; destruct Hgen as (mid & H1 & H2 & H3 & H4); exists mid; auto. }
  destruct e.
  - destruct line; apply Hplus; discriminate.
  - destruct line; apply Hplus; discriminate.
  - destruct He as (Hlf & Hlen & Hbuf).
    assert (Hne : line <> []) by (intros ->; cbn in Hlen; pose proof bufsize_pos; lia).
    assert (Hres : match (if ends_with CR line then ROk (removelast line) (Rd (CR :: r_buf s') (r_src s')) else ROk line s') with
      | ROk l s' => exists mid, bytes_left s = l ++ mid ++ bytes_left s' /\ LF ∉ l /\ l ++ mid <> [] /\ wf s'
      | RErr e s' => e = EEof /\ bytes_left s = [] /\ bytes_left s' = [] /\ wf s' | _ => False end).
    { destruct (ends_with CR line) eqn:Ec.
      - apply ends_with_true in Ec as [k ->]. rewrite removelast_last. exists []. split; [|split; [|split]].
        + rewrite E, <- app_assoc. reflexivity.
        + intros Hin. apply Hlf, elem_of_app. auto.
        + rewrite app_nil_r. intros ->. cbn in Hlen. pose proof bufsize_val. lia.
        + unfold wf. cbn. rewrite Hbuf. cbn. pose proof bufsize_pos. lia.
      - exists []. rewrite E, app_nil_r. auto. }
    destruct line; [congruence|exact Hres].
Qed.
Lemma read_some_spec n s : wf s -> match read_some n s with
  | ROk d s' => bytes_left s = d ++ bytes_left s' /\ (length d <= n)%nat /\ wf s'
  | RErr e s' => e = EEof /\ bytes_left s = [] /\ bytes_left s' = [] /\ wf s'
  | _ => False
  end.
Proof.
  intros Hw. destruct n as [|n]; [cbn; auto|]. cbn [read_some]. unfold bytes_left, wf in *. destruct s as [[|b buf] src]; cbn [r_buf r_src app] in *.
  - destruct (Nat.leb_spec bufsize (S n)).
    + pose proof (src_read_spec (S n) src ltac:(lia)) as H'. destruct (src_read (S n) src) as [[d cs]|]; cbn [r_buf r_src app length concat].
      * destruct H' as (_ & -> & Hl). repeat split; auto; lia.
      * repeat split; auto; lia.
    + pose proof (src_read_spec bufsize src bufsize_pos) as H'. destruct (src_read bufsize src) as [[d cs]|]; cbn [r_buf r_src app length concat].
      * destruct H' as (_ & -> & Hl). rewrite app_assoc, take_drop. split; [reflexivity|]. split; [rewrite take_length; lia|rewrite drop_length; lia].
      * repeat split; auto; lia.
  - cbn [r_buf r_src]. rewrite app_assoc, take_drop. split; [reflexivity|]. split; [rewrite take_length; lia|rewrite drop_length; lia].
Qed.
Lemma read_num_spec s : wf s -> match read_num s with
  | ROk n s' => exists l mid, bytes_left s = l ++ mid ++ bytes_left s' /\ LF ∉ l /\ l ++ mid <> [] /\ atoi l = Some n /\ wf s'
  | RErr e s' => exists c, bytes_left s = c ++ bytes_left s' /\ wf s' /\ (e = EEof -> bytes_left s = [] /\ bytes_left s' = [])
  | _ => False
  end.
Proof.
  intros Hw. unfold read_num. pose proof (read_line_spec s Hw) as H. destruct (read_line s) as [l s'|e s'| |]; cbn [rbind]; auto.
  - destruct H as (mid & H1 & H2 & H3 & H4). destruct (atoi l) eqn:E.
    + exists l, mid. auto.
    + exists (l ++ mid). rewrite <- app_assoc. split; [exact H1|]. split; [exact H4|discriminate].
  - destruct H as (-> & H1 & H2 & H3). exists []. rewrite H1, H2. auto.
Qed.

(** every message takes at least two bytes; the recursion bound is never reached *)
Lemma read_progress fuel :
  (forall s, wf s -> match read_msg fuel s with
     | ROk _ s' => (exists c, bytes_left s = c ++ bytes_left s' /\ (2 <= length c)%nat) /\ wf s'
     | RErr e s' => (exists c, bytes_left s = c ++ bytes_left s' /\ (e <> EEof -> c <> [])) /\ wf s' /\ (e = EEof -> bytes_left s' = [])
     | RPanic => True
     | RFuel => (fuel <= length (bytes_left s))%nat
     end) /\
  (forall k s, wf s -> match read_n fuel k s with
     | ROk _ s' => (exists c, bytes_left s = c ++ bytes_left s') /\ wf s'
     | RErr e s' => (exists c, bytes_left s = c ++ bytes_left s') /\ wf s' /\ (e = EEof -> bytes_left s' = [])
     | RPanic => True
     | RFuel => (fuel <= S (length (bytes_left s)))%nat
     end).
Proof.
  induction fuel as [|f [IHm IHn]]; [split; intros; cbn; lia|]. split.
  - intros s Hw. pose proof (read_byte_spec s Hw) as Hb. destruct (bytes_left s) as [|b rest] eqn:E.
    { destruct Hb as (s' & H1 & H2). cbn [read_msg]. rewrite H1. cbn [rbind]. split; [exists []; rewrite H2; split; [reflexivity|congruence]|].
      split; [|auto]. unfold read_byte in H1. destruct (r_buf s); [|discriminate]. destruct (src_read bufsize (r_src s)) as [[[|] ?]|]; try discriminate; injection H1 as <-; unfold wf; cbn; pose proof bufsize_pos; lia. }
    destruct (rm_any f s b rest E Hw) as (s1 & E1 & W1 & ->).
    assert (Hnum : match read_num s1 with
      | ROk n s' => exists c, rest = c ++ bytes_left s' /\ c <> [] /\ wf s'
      | RErr e s' => (exists c, b :: rest = c ++ bytes_left s' /\ (e <> EEof -> c <> [])) /\ wf s' /\ (e = EEof -> bytes_left s' = [])
      | _ => False end).
    { pose proof (read_num_spec s1 W1) as H. rewrite E1 in H. destruct (read_num s1) as [n s'|e s'| |]; auto.
      - destruct H as (l & mid & H1 & _ & H3 & _ & H5). exists (l ++ mid). rewrite <- app_assoc. auto.
      - destruct H as (c & H1 & H2 & H3). split; [exists (b :: c); rewrite H1; split; [reflexivity|discriminate]|]. split; [exact H2|]. intros He. apply (H3 He). }
    assert (Hline : match read_line s1 with
      | ROk n s' => exists c, rest = c ++ bytes_left s' /\ c <> [] /\ wf s'
      | RErr e s' => (exists c, b :: rest = c ++ bytes_left s' /\ (e <> EEof -> c <> [])) /\ wf s' /\ (e = EEof -> bytes_left s' = [])
      | _ => False end).
    { pose proof (read_line_spec s1 W1) as H. rewrite E1 in H. destruct (read_line s1) as [n s'|e s'| |]; auto.
      - destruct H as (mid & H1 & _ & H3 & H5). exists (n ++ mid). rewrite <- app_assoc. auto.
      - destruct H as (-> & H1 & H2 & H3). split; [exists (b :: rest); rewrite H2, app_nil_r; split; [reflexivity|discriminate]|]. auto. }
    assert (Hc : forall (c t : gostr), c <> [] -> exists c', b :: c ++ t = c' ++ t /\ (2 <= length c')%nat).
    { intros c t Hne. exists (b :: c). split; [reflexivity|]. destruct c; [congruence|]. cbn. lia. }
    destruct (Byte.eqb b (z2b 36)).
    { destruct (read_num s1) as [n s2|e s2| |]; cbn [rbind]; try contradiction; [|exact Hnum]. destruct Hnum as (c & -> & Hne & W2).
      destruct (n =? -1); [split; [apply Hc, Hne|exact W2]|]. unfold read_bulk. destruct (make_ok n); [|exact I].
      pose proof (read_some_spec (Z.to_nat n) s2 W2) as H. destruct (read_some (Z.to_nat n) s2) as [d s3|e s3| |]; cbn [rbind]; try contradiction.
      - destruct H as (H1 & _ & W3). pose proof (read_line_spec s3 W3) as H'. destruct (read_line s3) as [l s4|e s4| |]; cbn [rbind]; try contradiction.
        + destruct H' as (mid & H1' & _ & _ & W4). split; [|exact W4]. rewrite H1, H1'. exists (b :: c ++ d ++ l ++ mid). split; [cbn; rewrite <- ?app_assoc; reflexivity|]. destruct c; [congruence|]. cbn. lia.
        + destruct H' as (-> & H1' & H2' & W4). split; [|auto]. exists (b :: c ++ d). rewrite H1, H1', H2', !app_nil_r. split; [reflexivity|discriminate].
      - destruct H as (-> & H1 & H2 & W3). split; [|auto]. exists (b :: c). rewrite H1, H2, !app_nil_r. split; [reflexivity|discriminate]. }
    destruct (Byte.eqb b (z2b 43)).
    { destruct (read_line s1) as [l s2|e s2| |]; cbn [rbind]; try contradiction; [|exact Hline]. destruct Hline as (c & -> & Hne & W2). split; [apply Hc, Hne|exact W2]. }
    destruct (Byte.eqb b (z2b 45)).
    { destruct (read_line s1) as [l s2|e s2| |]; cbn [rbind]; try contradiction; [|exact Hline]. destruct Hline as (c & -> & Hne & W2). split; [apply Hc, Hne|exact W2]. }
    destruct (Byte.eqb b (z2b 58)).
    { destruct (read_num s1) as [l s2|e s2| |]; cbn [rbind]; try contradiction; [|exact Hnum]. destruct Hnum as (c & -> & Hne & W2). split; [apply Hc, Hne|exact W2]. }
    destruct (Byte.eqb b (z2b 42)).
    { destruct (read_num s1) as [n s2|e s2| |]; cbn [rbind]; try contradiction; [|exact Hnum]. destruct Hnum as (c & -> & Hne & W2).
      specialize (IHn n s2 W2). destruct (read_n f n s2) as [l s3|e s3| |]; cbn [rbind]; auto.
      - destruct IHn as [(c2 & H2) W3]. split; [|exact W3]. rewrite H2, app_assoc. apply Hc. destruct c; [congruence|discriminate].
      - destruct IHn as [(c2 & H2) W3]. split; [|exact W3]. rewrite H2. exists (b :: c ++ c2). split; [cbn; rewrite app_assoc; reflexivity|discriminate].
      - cbn. rewrite app_length. destruct c; [congruence|]. cbn. lia. }
    split; [exists [b]; rewrite <- E1; split; [reflexivity|discriminate]|]. split; [exact W1|discriminate].
  - intros k s Hw. cbn [read_n]. destruct (k <=? 0); [split; [exists []; reflexivity|exact Hw]|].
    specialize (IHm s Hw). destruct (read_msg f s) as [m s1|e s1| |]; cbn [rbind]; auto; [|destruct IHm as [(c & H1 & _) [W2 H3]]; eauto|lia].
    destruct IHm as [(c & H1 & Hc) W1]. specialize (IHn (k - 1) s1 W1). destruct (read_n f (k - 1) s1) as [l s2|e s2| |]; cbn [rbind]; auto.
    + destruct IHn as [(c2 & H2) W2]. split; [|exact W2]. exists (c ++ c2). rewrite H1, H2, app_assoc. reflexivity.
    + destruct IHn as [(c2 & H2) W2]. split; [|exact W2]. exists (c ++ c2). rewrite H1, H2, app_assoc. reflexivity.
    + rewrite H1, app_length. lia.
Qed.

(** ** when [make] is never given a bad length *)
Definition headers_ok (S : gostr) : Prop :=
  forall a L b n, S = a ++ (z2b 36 :: L) ++ b -> LF ∉ L -> atoi L = Some n -> -1 <= n <= 2 ^ 48.
Lemma headers_ok_suffix c S : headers_ok (c ++ S) -> headers_ok S.
Proof. intros H a L b n E. apply (H (c ++ a) L b n). rewrite E, <- app_assoc. reflexivity. Qed.
Lemma read_no_panic fuel :
  (forall s, wf s -> headers_ok (bytes_left s) -> read_msg fuel s <> RPanic) /\
  (forall k s, wf s -> headers_ok (bytes_left s) -> read_n fuel k s <> RPanic).
Proof.
  induction fuel as [|f [IHm IHn]]; [split; intros; discriminate|]. split.
  - intros s Hw Hh. pose proof (read_byte_spec s Hw) as Hb. destruct (bytes_left s) as [|b rest] eqn:E.
    { destruct Hb as (s' & H1 & H2). cbn [read_msg]. rewrite H1. discriminate. }
    destruct (rm_any f s b rest E Hw) as (s1 & E1 & W1 & ->).
    pose proof (read_num_spec s1 W1) as Hnum. pose proof (read_line_spec s1 W1) as Hline. rewrite E1 in Hnum.
    destruct (Byte.eqb b (z2b 36)) eqn:Eb.
    { apply byte_eqb_eq in Eb. subst b. destruct (read_num s1) as [n s2|e s2| |]; cbn [rbind]; try contradiction; [|discriminate].
      destruct Hnum as (l & mid & H1 & H2 & _ & H4 & W2). assert (Hn : -1 <= n <= 2 ^ 48). { apply (Hh [] l (mid ++ bytes_left s2) n); auto. rewrite H1. reflexivity. }
      destruct (Z.eqb_spec n (-1)); [discriminate|]. unfold read_bulk. unfold make_ok, max_alloc. destruct (Z.leb_spec 0 n); [|lia]. destruct (Z.leb_spec n (2 ^ 48)); [|lia]. cbn [andb].
      pose proof (read_some_spec (Z.to_nat n) s2 W2) as H'. destruct (read_some (Z.to_nat n) s2) as [d s3|e s3| |]; cbn [rbind]; try contradiction; [|discriminate].
      destruct H' as (_ & _ & W3). pose proof (read_line_spec s3 W3) as H''. destruct (read_line s3); cbn [rbind]; try contradiction; discriminate. }
    destruct (Byte.eqb b (z2b 43)). { destruct (read_line s1); cbn [rbind]; try contradiction; discriminate. }
    destruct (Byte.eqb b (z2b 45)). { destruct (read_line s1); cbn [rbind]; try contradiction; discriminate. }
    destruct (Byte.eqb b (z2b 58)). { destruct (read_num s1); cbn [rbind]; try contradiction; discriminate. }
    destruct (Byte.eqb b (z2b 42)); [|discriminate].
    destruct (read_num s1) as [n s2|e s2| |]; cbn [rbind]; try contradiction; [|discriminate].
    destruct Hnum as (l & mid & H1 & _ & _ & _ & W2). specialize (IHn n s2 W2). destruct (read_n f n s2); cbn [rbind]; try discriminate. exfalso. apply IHn; [|reflexivity].
    apply (headers_ok_suffix (b :: l ++ mid)). cbn. rewrite <- app_assoc, <- H1. exact Hh.
  - intros k s Hw Hh. cbn [read_n]. destruct (k <=? 0); [discriminate|]. pose proof (proj1 (read_progress f) s Hw) as Hp. specialize (IHm s Hw Hh).
    destruct (read_msg f s) as [m s1|e s1| |]; cbn [rbind]; try discriminate; [|congruence]. destruct Hp as [(c & H1 & _) W1].
    specialize (IHn (k - 1) s1 W1). destruct (read_n f (k - 1) s1); cbn [rbind]; try discriminate. exfalso. apply IHn; [|reflexivity]. apply (headers_ok_suffix c). rewrite <- H1. exact Hh.
Qed.

(** ** truncated replies made of bulk strings *)
Fixpoint bulky (m : msg) : Prop :=
  match m with
  | MBulk _ => True
  | MArr l => l <> [] /\ fold_right (fun m P => bulky m /\ P) True l
  | _ => False
  end.
Lemma bulky_arr l : bulky (MArr l) <-> l <> [] /\ Forall bulky l.
Proof. cbn [bulky]. split; intros [H1 H2]; (split; [exact H1|]); clear H1; induction l as [|x l IH]; cbn in *; auto; [destruct H2|inversion H2; subst]; auto. Qed.
Lemma app_split (p q a b : gostr) : p ++ q = a ++ b ->
  (exists a', a = p ++ a' /\ a' <> [] /\ q = a' ++ b) \/ (exists p', p = a ++ p' /\ b = p' ++ q).
Proof.
  revert a. induction p as [|x p IH]; intros a E; cbn in E.
  - destruct a as [|y a]; [right; exists []; auto|]. left. exists (y :: a). split; [reflexivity|]. split; [discriminate|exact E].
  - destruct a as [|y a]; cbn in E.
    + right. exists (x :: p). split; [reflexivity|]. symmetry. exact E.
    + injection E as -> E. destruct (IH a E) as [(a' & -> & H1 & H2)|(p' & -> & H2)]; [left; exists a'; auto|right; exists p'; auto].
Qed.
Lemma read_line_eof l : LF ∉ l -> l <> [] -> (length l < bufsize)%nat -> read_line (Rd l []) = ROk l (Rd [] []).
Proof.
  intros H1 H2 H3. unfold read_line. cbn [r_buf r_src]. unfold read_slice. rewrite (proj2 (lf_index_none l) H1). destruct (Nat.leb_spec bufsize (length l)); [lia|].
  destruct l as [|x l]; [congruence|]. destruct (ends_with LF (x :: l)) eqn:E; [|reflexivity]. apply ends_with_true in E as [k E]. exfalso. apply H1. rewrite E. apply elem_of_app. right. left.
Qed.
Lemma read_line_none : read_line (Rd [] []) = RErr EEof (Rd [] []).
Proof. unfold read_line. cbn [r_buf r_src]. unfold read_slice. cbn [lf_index]. destruct (Nat.leb_spec bufsize (length (@nil byte))) as [H|]; [pose proof bufsize_pos; cbn in H; lia|]. reflexivity. Qed.
Lemma value_ge s : forall acc, 0 <= acc -> Forall (fun b => 48 <= b2z b <= 57) s -> acc <= value acc s.
Proof. induction s as [|b s IH]; intros acc Ha H; cbn; [lia|]. inversion H; subst. specialize (IH (10 * acc + (b2z b - 48)) ltac:(lia) H3). lia. Qed.
Lemma value_app s t : forall acc, value acc (s ++ t) = value (value acc s) t.
Proof. induction s; intros; cbn; auto. Qed.
Lemma value_mono s : forall a b, a <= b -> value a s <= value b s.
Proof. induction s; intros a' b' H; cbn; [exact H|]. apply IHs. lia. Qed.
Lemma digits_prefix d d' e : d = d' ++ e -> d' <> [] -> digits d -> digits d' /\ 0 <= value 0 d' <= value 0 d.
Proof.
  intros -> Hne [_ H]. apply Forall_app in H as [H1 H2]. split; [split; assumption|]. rewrite value_app.
  pose proof (value_ge d' 0 ltac:(lia) H1). pose proof (value_ge e (value 0 d') ltac:(lia) H2). lia.
Qed.
(** a header line cut short: an error, or a smaller count and the end of the stream *)
Lemma read_num_cut n d p q : num_nat n d -> n < 2 ^ 63 -> (length p < bufsize)%nat -> p ++ q = d ++ crlf -> q <> [] ->
  (exists e s', read_num (Rd p []) = RErr e s') \/
  (exists n', read_num (Rd p []) = ROk n' (Rd [] []) /\ 0 <= n' <= n /\ digits p /\ value 0 p = n' /\ exists e, d = p ++ e).
Proof.
  intros Hd Hn Hp E Hq. destruct p as [|x p'] eqn:Ep.
  { left. unfold read_num. rewrite read_line_none. cbn. eauto. }
  rewrite <- Ep in *. assert (Hne : p <> []) by (rewrite Ep; discriminate). clear Ep x p'.
  pose proof (num_nat_line n d Hd) as [HC HL].
  apply app_split in E as [(d' & -> & Hd' & Eq)|(p' & -> & E)].
  - destruct Hd as [Hd Hv]. destruct (digits_prefix (p ++ d') p d' eq_refl Hne Hd) as [H1 H2].
    right. exists (value 0 p). split; [|split; [lia|split; [exact H1|split; [reflexivity|eauto]]]].
    unfold read_num. rewrite read_line_eof; [cbn [rbind]|intros H; apply HL, elem_of_app; auto|exact Hne|exact Hp].
    rewrite (atoi_nat (value 0 p) p); [reflexivity|split; auto|lia].
  - destruct p' as [|c p'].
    + rewrite app_nil_r in *. right. exists n. destruct Hd as [Hd Hv]. split; [|split; [subst; pose proof (value_ge d 0 ltac:(lia) (proj2 Hd)); lia|split; [exact Hd|split; [exact Hv|exists []; rewrite app_nil_r; reflexivity]]]].
      unfold read_num. rewrite read_line_eof; [cbn [rbind]|exact HL|apply Hd|exact Hp]. rewrite (atoi_nat n d); [reflexivity|split; auto|lia].
    + assert (c = CR /\ p' = []) as [-> ->].
      { unfold crlf in E. cbn in E. injection E as <- E. destruct p' as [|c2 p']; [auto|]. cbn in E. injection E as <- E. destruct p', q; try discriminate. congruence. }
      left. unfold read_num. rewrite read_line_eof; [cbn [rbind]| |destruct d; discriminate|exact Hp].
      * destruct (atoi (d ++ [CR])) eqn:Ea; [|eauto]. exfalso.
        assert (Hx : atoi (d ++ [CR]) = None); [|congruence].
        destruct Hd as [[Hdne Hd] _]. unfold atoi. destruct d as [|x d]; [congruence|]. inversion Hd as [|? ? Hx Hd']; subst. cbn [app].
        assert (forallb is_digit ((x :: d) ++ [CR]) = false). { rewrite forallb_app. replace (forallb is_digit [CR]) with false by reflexivity. apply andb_false_r. }
        cbn [app] in H. destruct (b2z x =? 45) eqn:E45; [lia|]. destruct (b2z x =? 43) eqn:E43; [lia|]. rewrite ?H, ?andb_false_r. try reflexivity.
      * intros H. apply elem_of_app in H as [H|H]; [exact (HL H)|]. apply elem_of_list_singleton in H. discriminate.
Qed.
Lemma bulky_encodable m : bulky m -> encodable m.
Proof.
  induction m using msg_ind2; cbn [bulky encodable]; try tauto. intros [_ Hb]. clear -H Hb. induction l as [|x l IH]; cbn in *; [exact I|]. inversion H; subst. split; [tauto|]. apply IH; tauto.
Qed.
Lemma read_msg_none f : read_msg (S f) (Rd [] []) = RErr EEof (Rd [] []).
Proof. reflexivity. Qed.
Definition cut_outcome {A} (q : gostr) (r : res A) : Prop :=
  (exists e s', r = RErr e s') \/ (length q = 1%nat /\ exists x, r = ROk x (Rd [] [])).
Lemma read_cut :
  (forall m, bulky m -> forall fuel p q, p ++ q = serialize m -> q <> [] -> fits (serialize m) -> (length p <= bufsize)%nat -> (length p < fuel)%nat ->
     cut_outcome q (read_msg fuel (Rd p []))).
Proof.
  assert (Hc2 : length crlf = 2%nat) by reflexivity.
  induction m using msg_ind2; try (intros []; fail).
  - intros _ fuel p q E Hq Hfit Hp Hf. destruct fuel as [|f]; [lia|]. destruct p as [|x p]; [left; exists EEof, (Rd [] []); reflexivity|].
    cbn [serialize] in E, Hfit. change eof with crlf in *. change (bs "$" ++ (itoa (zlen s) ++ crlf) ++ s ++ crlf) with (z2b 36 :: (itoa (zlen s) ++ crlf) ++ s ++ crlf) in *. injection E as -> E.
    change (z2b 36 :: p) with (bs "$" ++ p). rewrite rm_bulk.
    assert (Hlen : zlen s <= max_alloc). { unfold fits in Hfit. cbn [length] in Hfit. rewrite !app_length in Hfit. unfold zlen. lia. }
    pose proof (num_nat_itoa (zlen s) (zlen_nonneg s)) as Hnum. cbn [length] in Hp, Hf.
    assert (Hi : int64 (zlen s)). { unfold int64. pose proof (zlen_nonneg s). unfold max_alloc in Hlen. lia. }
    apply app_split in E as [(a' & E1 & Ha & Eq)|(p' & -> & E)].
    + symmetry in E1. destruct (read_num_cut (zlen s) (itoa (zlen s)) p a' Hnum ltac:(unfold int64 in Hi; lia) ltac:(lia) E1 Ha) as [(e & s' & ->)|(n' & -> & Hn & _)].
      { left. cbn [rbind]. eauto. }
      cbn [rbind]. destruct (Z.eqb_spec n' (-1)); [lia|]. left. unfold read_bulk, make_ok. destruct (Z.leb_spec 0 n'); [|lia]. destruct (Z.leb_spec n' max_alloc); [|lia]. cbn [andb].
      destruct (Z.to_nat n') as [|k]; cbn [read_some rbind].
      * rewrite read_line_none. cbn [rbind]. eauto.
      * cbn [r_buf r_src src_read]. destruct (Nat.leb bufsize (S k)); cbn [rbind]; eauto.
    + rewrite <- app_assoc, (read_num_buf (zlen s)); [|left; exact Hnum|exact Hi]. cbn [rbind]. destruct (Z.eqb_spec (zlen s) (-1)); [pose proof (zlen_nonneg s); lia|].
      unfold read_bulk, make_ok. destruct (Z.leb_spec 0 (zlen s)); [|pose proof (zlen_nonneg s); lia]. destruct (Z.leb_spec (zlen s) max_alloc); [|lia]. cbn [andb].
      replace (Z.to_nat (zlen s)) with (length s) by (unfold zlen; lia). symmetry in E. apply app_split in E as [(a' & E1 & Ha & Eq)|(p2 & -> & E)].
      * left. subst s. destruct p' as [|y p'].
        { cbn [app] in *. destruct a' as [|z a']; [congruence|]. cbn [length read_some r_buf r_src src_read]. destruct (Nat.leb bufsize (S (length a'))); cbn [rbind]; eauto. }
        destruct (length ((y :: p') ++ a')) as [|k] eqn:El; [discriminate|]. cbn [read_some r_buf r_src]. rewrite take_ge, drop_ge by (rewrite <- ?El, ?app_length; lia). cbn [rbind].
        rewrite read_line_none. cbn [rbind]. eauto.
      * rewrite read_some_buf. cbn [rbind]. destruct p2 as [|y p2]; [left; rewrite read_line_none; cbn [rbind]; eauto|].
        assert (y = CR /\ p2 = [] /\ length q = 1%nat) as (-> & -> & Hq1).
        { unfold crlf in E. cbn in E. injection E as <- E. destruct p2 as [|c2 p2]; [cbn in E; subst q; auto|]. cbn in E. injection E as <- E. destruct p2, q; try discriminate. congruence. }
        right. split; [exact Hq1|]. rewrite read_line_eof; [cbn [rbind]; eauto| |discriminate|].
        -- intros H'. apply elem_of_list_singleton in H'. discriminate.
        -- cbn. pose proof bufsize_val. lia.
  - intros Hb fuel p q E Hq Hfit Hp Hf. apply bulky_arr in Hb as [Hne Hb]. destruct fuel as [|f]; [lia|]. destruct p as [|x p]; [left; exists EEof, (Rd [] []); reflexivity|].
    assert (Hl3 : (length l <= length (concat (map serialize l)))%nat).
    { clear -Hb. induction Hb as [|m l Hm Hl IH]; cbn; [lia|]. rewrite app_length. pose proof (wire_long _ _ (wire_serialize m (bulky_encodable m Hm))). lia. }
    cbn [serialize] in E, Hfit. change eof with crlf in *. rewrite <- app_assoc in E, Hfit. change (bs "*" ++ (itoa (zlen l) ++ crlf) ++ concat (map serialize l)) with (z2b 42 :: (itoa (zlen l) ++ crlf) ++ concat (map serialize l)) in *. injection E as -> E.
    change (z2b 42 :: p) with (bs "*" ++ p). rewrite rm_arr.
    assert (Hlen : zlen l <= max_alloc). { unfold fits in Hfit. cbn [length] in Hfit. rewrite !app_length in Hfit. unfold zlen. lia. }
    pose proof (num_nat_itoa (zlen l) (zlen_nonneg l)) as Hnum. cbn [length] in Hp, Hf.
    assert (Hi : int64 (zlen l)). { unfold int64. pose proof (zlen_nonneg l). unfold max_alloc in Hlen. lia. }
    assert (Hpos : 0 < zlen l) by (unfold zlen; destruct l; [congruence|cbn; lia]).
    apply app_split in E as [(a' & E1 & Ha & Eq)|(p' & -> & E)].
    + symmetry in E1. destruct (read_num_cut (zlen l) (itoa (zlen l)) p a' Hnum ltac:(unfold int64 in Hi; lia) ltac:(lia) E1 Ha) as [(e & s' & ->)|(n' & -> & Hn & Hdig & Hval & (e & Ee))].
      { left. cbn [rbind]. eauto. }
      assert (Hn0 : 0 < n').
      { destruct (dec_spec (zlen l) ltac:(lia)) as (_ & _ & _ & _ & Hlead). destruct (Hlead Hpos) as (d & r & Ed & Hd).
        unfold itoa in Ee. destruct (Z.ltb_spec (zlen l) 0); [lia|]. rewrite Ed in Ee. destruct p as [|y p]; [destruct Hdig; congruence|]. cbn in Ee. injection Ee as <- Ee.
        rewrite <- Hval. cbn [value]. destruct Hdig as [_ Hdig]. inversion Hdig; subst. rewrite digit_b2z by lia. pose proof (value_ge p (10 * 0 + (48 + d - 48)) ltac:(lia) H4). lia. }
      cbn [rbind]. left. destruct f as [|f]; [destruct p; [destruct Hdig; congruence|cbn in Hf; lia]|]. cbn [read_n]. destruct (Z.leb_spec n' 0); [lia|].
      destruct f as [|f]; [destruct p as [|y p]; [destruct Hdig; congruence|cbn in Hf; lia]|].
      rewrite read_msg_none. cbn [rbind]. eauto.
    + rewrite <- app_assoc, (read_num_buf (zlen l)); [|left; exact Hnum|exact Hi]. cbn [rbind].
      assert (Hn : forall l, Forall bulky l -> Forall (fun m => bulky m -> forall fuel p q, p ++ q = serialize m -> q <> [] -> fits (serialize m) -> (length p <= bufsize)%nat -> (length p < fuel)%nat ->
          cut_outcome q (read_msg fuel (Rd p []))) l -> forall f p q, p ++ q = concat (map serialize l) -> q <> [] -> fits (concat (map serialize l)) -> (length p <= bufsize)%nat -> (length p + 1 < f)%nat ->
          cut_outcome q (read_n f (zlen l) (Rd p []))).
      { clear. intros l Hb. induction Hb as [|m l Hm Hl IH]; intros HI f p q E Hq Hfit Hp Hf.
        - cbn in E. destruct p, q; try discriminate. congruence.
        - inversion HI as [|? ? HIm HIl]; subst. destruct f as [|f]; [lia|]. cbn [read_n]. destruct (Z.leb_spec (zlen (m :: l)) 0) as [Hz|_]; [rewrite zlen_cons in Hz; pose proof (zlen_nonneg l); lia|].
          cbn [map concat] in E, Hfit. assert (Hfm : fits (serialize m) /\ fits (concat (map serialize l))) by (unfold fits in *; rewrite app_length in Hfit; lia). destruct Hfm as [Hfm Hfl].
          rewrite zlen_cons. replace (1 + zlen l - 1) with (zlen l) by lia. apply app_split in E as [(a' & E1 & Ha & Eq)|(p' & -> & E)].
          + destruct (HIm Hm f p a' (eq_sym E1) Ha Hfm Hp ltac:(lia)) as [(e & s' & ->)|(Ha1 & x & ->)]; [left; cbn [rbind]; eauto|]. cbn [rbind].
            destruct l as [|m2 l].
            * right. cbn [map concat] in Eq. rewrite app_nil_r in Eq. subst q. split; [exact Ha1|]. destruct f as [|f]; [lia|]. cbn [read_n]. change (zlen (@nil msg)) with 0. cbn [Z.leb Z.compare rbind]. eauto.
            * left. destruct f as [|f]; [lia|]. cbn [read_n]. destruct (Z.leb_spec (zlen (m2 :: l)) 0) as [Hz|_]; [rewrite zlen_cons in Hz; pose proof (zlen_nonneg l); lia|].
              destruct f as [|f]; [exfalso|rewrite read_msg_none; cbn [rbind]; eauto].
              pose proof (wire_long _ _ (wire_serialize m (bulky_encodable m Hm))) as Hw. rewrite E1, app_length in Hw. lia.
          + pose proof (wire_long _ _ (wire_serialize m (bulky_encodable m Hm))) as Hw. rewrite app_length in Hp, Hf.
            rewrite (proj1 read_wire m (serialize m) (wire_serialize m (bulky_encodable m Hm))); [|lia|exact Hfm]. cbn [rbind].
            destruct (IH HIl f p' q (eq_sym E) Hq Hfl ltac:(lia) ltac:(lia)) as [(e & s' & ->)|(Ha1 & x & ->)]; [left|right]; cbn [rbind]; eauto. }
      rewrite <- app_assoc in *. rewrite !app_length in Hp, Hf.
      destruct (Hn l Hb H f p' q (eq_sym E) Hq) as [(e & s' & ->)|(Ha1 & x & ->)]; try lia.
      * unfold fits in *. cbn [length] in Hfit. rewrite !app_length in Hfit. lia.
      * left. cbn [rbind]. eauto.
      * right. cbn [rbind]. eauto.
Qed.
