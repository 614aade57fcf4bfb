(** * Props_Packed3: the size zipmap.Len gives (redis/zipmap) *)
From stdpp Require Import list gmap.
From Verif Require Import Base PackedModel PackedSpec Props_Packed.

(** ** C159: Len(key, value) is the number of bytes the entry takes

    In the format it is, without spare bytes behind the value. The full statement also says that Set(key, value) of a new key
    adds that many bytes. It is false for every zipmap, key and value: Set does not write the byte that counts the spare bytes. *)
Lemma zlen_zlength n : zlen (zlength n) = if n >=? 254 then 5 else 1.
Proof. unfold zlength. rewrite Z.geb_leb. destruct (Z.ltb_spec n 254), (Z.leb_spec 254 n); try lia; reflexivity. Qed.
Theorem C159_size_in_format_partial p : zlen (zpair_enc p) = zipmap_len (zp_key p) (zp_val p) + zlen (zp_free p).
Proof.
  unfold zpair_enc, zipmap_len. rewrite !zlen_app, !zlen_zlength. change (zlen [z2b (zlen (zp_free p))]) with 1.
  destruct (zlen (zp_key p) >=? 254), (zlen (zp_val p) >=? 254); lia.
Qed.
(** What Set adds is always one byte less, or nothing when the key is there. *)
Theorem C159_set_adds_partial grow z key value z' : zm_set grow z key value = Some z' ->
  zlen (zm_val z') = zlen (zm_val z) + zipmap_len key value - 1 \/ (z' = z /\ exists n, zm_lookup z key = Some (n, true)).
Proof.
  unfold zm_set. destruct (zm_lookup z key) as [[n found]|] eqn:El; [|discriminate]. cbn [obind snd]. destruct found.
  - intros [= <-]. right. eauto.
  - destruct (zm_val z) as [|b0 v] eqn:Ev; [discriminate|]. set (y := take _ _). cbn [zm_append zm_val]. intros E. left.
    assert (Hy : zlen y = zlen v). { unfold y, zlen. rewrite take_length. cbn [length]. lia. }
    set (w := (y ++ _) ++ [xff]) in E. assert (Hw : zlen w = zlen v + zipmap_len key value).
    { unfold w, zipmap_len. rewrite !zlen_app, !zm_len_zlength, !zlen_zlength, Hy. change (zlen [xff]) with 1. destruct (zlen key >=? 254), (zlen value >=? 254); lia. }
    destruct w as [|b w]; [discriminate|]. injection E as <-. cbn [zm_val]. rewrite !zlen_cons in *. destruct (b2z b <? 254); rewrite zlen_cons; lia.
Qed.
Theorem C159_set_adds_refuted grow z key value z' : zm_set grow z key value = Some z' -> zlen (zm_val z') <> zlen (zm_val z) + zipmap_len key value.
Proof.
  intros E. destruct (C159_set_adds_partial _ _ _ _ _ E) as [H|[-> _]]; [lia|]. unfold zipmap_len. pose proof (zlen_nonneg key). pose proof (zlen_nonneg value).
  destruct (zlen key >=? 254), (zlen value >=? 254); lia.
Qed.
Example C159_nonvacuous : zipmap_len (bs "foo") (bs "ba") = 8 /\ zlen (zpair_enc (ZPair (bs "foo") (bs "ba") [])) = 8 /\
  option_map (fun z => zlen (zm_val z)) (zm_set (fun _ n => n) zm_new (bs "foo") (bs "ba")) = Some 9 /\ zlen (zm_val zm_new) = 2.
Proof. repeat split; vm_compute; reflexivity. Qed.

Print Assumptions C159_size_in_format_partial.
Print Assumptions C159_set_adds_partial.
Print Assumptions C159_set_adds_refuted.
(** The array behind a built zipmap is as long as its text at least, and Set keeps it while the text fits. *)
Theorem C91_array_partial grow z key value z' : (length (zm_val z) <= zm_cap z)%nat -> zm_set grow z key value = Some z' ->
  (length (zm_val z') <= zm_cap z')%nat /\ ((length (zm_val z') <= zm_cap z)%nat -> zm_cap z' = zm_cap z) /\ (zm_cap z <= zm_cap z')%nat.
Proof.
  intros Hc. unfold zm_set. destruct (zm_lookup z key) as [[i b]|]; cbn [snd]; [|discriminate]. destruct b; [intros [= <-]; auto|].
  destruct (zm_val z) as [|x0 v0] eqn:Ev; [discriminate|]. set (v := x0 :: v0) in *. set (xs := zm_len key ++ _). assert (Hl : length (take (length v - 1) v) = (length v - 1)%nat) by (rewrite take_length; lia). set (u := take (length v - 1) v) in *.
  unfold zm_append. cbn [zm_val zm_cap].
  destruct ((u ++ xs) ++ [xff]) as [|b r] eqn:Er; [discriminate|]. intros [= <-]. cbn [zm_val zm_cap].
  assert (Hn : length (if b2z b <? 254 then z2b (b2z b + 1) :: r else b :: r) = (length u + length xs + 1)%nat).
  { transitivity (length (b :: r)); [destruct (_ <? _); reflexivity|]. rewrite <- Er, !app_length. reflexivity. }
  rewrite Hn. rewrite ?app_length. cbn [length]. set (n := (length u + length xs)%nat). clearbody n.
  destruct (Nat.leb_spec n (zm_cap z)); destruct (Nat.leb_spec (n + 1) (zm_cap z)); try lia; repeat match goal with |- context [Nat.leb ?a ?b] => destruct (Nat.leb_spec a b) end; lia.
Qed.
Example C91_array_nonvacuous : match zm_set (fun _ n => (2 * n)%nat) zm_new (bs "k") (bs "v") with Some z => Some (length (zm_val z), zm_cap z) | None => None end = Some (6%nat, 10%nat).
Proof. vm_compute. reflexivity. Qed.
