(** * Props_Bad: every bad bulk header that is reached panics (C59) *)
From Verif Require Import Base RespModel RespSpec RespLib.
From Verif Require Import Props_Resp.

(** A stream in which a bulk header with a length below -1 or above what [make] accepts is reached: it comes first, or in an array after fewer elements than
    the array has, these being of the kind that is read alike however the bytes arrive. *)
Inductive bad_head : gostr -> Prop :=
| bh_bulk n t : int64 n -> n < -1 \/ n > 2 ^ 48 -> bad_head (bs "$" ++ itoa n ++ crlf ++ t)
| bh_arr n ms t : int64 n -> Z.of_nat (length ms) < n -> Forall steady ms -> bad_head t -> bad_head (bs "*" ++ itoa n ++ crlf ++ concat (map serialize ms) ++ t).
Lemma bad_head_read b : bad_head b -> forall fuel s, bytes_left s = b -> wf s -> (length b <= fuel)%nat -> read_msg fuel s = RPanic.
Proof.
  induction 1 as [n t Hi Hn|n ms t Hi Hn Hms Hb IH]; intros [|f] s E Hw Hf; try (rewrite app_length in Hf; cbn in Hf; lia).
  - change (bs "$" ++ ?x) with (z2b 36 :: x) in E. destruct (rm_any f s _ _ E Hw) as (s1 & E1 & W1 & ->). change (Byte.eqb (z2b 36) (z2b 36)) with true. cbn iota.
    destruct (read_num_any s1 n _ E1) as (s2 & -> & E2 & W2); [exact Hi|exact W1|]. cbn [rbind]. destruct (Z.eqb_spec n (-1)) as [->|_]; [lia|].
    unfold read_bulk, make_ok. replace ((0 <=? n) && (n <=? max_alloc)) with false; [reflexivity|]. symmetry. apply andb_false_iff. unfold max_alloc. lia.
  - change (bs "*" ++ ?x) with (z2b 42 :: x) in E, Hf. destruct (rm_any f s _ _ E Hw) as (s1 & E1 & W1 & ->). change (Byte.eqb (z2b 42) (z2b 36)) with false. change (Byte.eqb (z2b 42) (z2b 43)) with false. change (Byte.eqb (z2b 42) (z2b 45)) with false. change (Byte.eqb (z2b 42) (z2b 58)) with false. change (Byte.eqb (z2b 42) (z2b 42)) with true. cbn iota.
    destruct (read_num_any s1 _ _ E1) as (s2 & -> & E2 & W2); [exact Hi|exact W1|]. cbn [rbind].
    assert (Hf2 : (length (concat (map serialize ms) ++ t) < f)%nat). { cbn [length] in Hf. rewrite !app_length in Hf. rewrite app_length. assert (length crlf = 2%nat) by reflexivity. lia. }
    assert (Hp : read_n f n s2 = RPanic); [|rewrite Hp; reflexivity].
    clear s s1 E E1 Hw W1 Hf Hi. revert n s2 f Hn E2 W2 Hf2. induction Hms as [|m ms Hm Hms IHl]; intros n s2 f Hn E2 W2 Hf2; destruct f as [|f]; try lia; cbn [read_n]; (destruct (Z.leb_spec n 0) as [H0|_]; [lia|]).
    + cbn [map concat app] in E2, Hf2. rewrite (IH f s2 E2 W2) by lia. reflexivity.
    + cbn [map concat] in E2, Hf2. rewrite <- app_assoc in E2. rewrite !app_length in Hf2. cbn [length] in Hn.
      assert (1 <= length (serialize m))%nat by (destruct m; cbn; lia).
      destruct (read_steady m Hm f s2 _ E2 W2) as (s3 & -> & E3 & W3); [lia|]. cbn [rbind]. rewrite (IHl (n - 1) s3 f); [reflexivity|lia|exact E3|exact W3|rewrite app_length; lia].
Qed.
(** However the bytes arrive, the reader panics. *)
Theorem C59_bad_header_panics_refuted cs : bad_head (concat cs) -> recv (new_rd cs) = RPanic.
Proof.
  intros H. unfold recv. apply (bad_head_read _ H).
  - reflexivity.
  - unfold wf. cbn. lia.
  - unfold bytes_left. cbn. lia.
Qed.
Example C59_bad_nonvacuous : bad_head (bs "*3" ++ crlf ++ bs ":7" ++ crlf ++ bs "*1" ++ crlf ++ bs "$-2" ++ crlf) /\
  recv (new_rd [bs "*3" ++ crlf ++ bs ":"; bs "7" ++ crlf ++ bs "*1" ++ crlf ++ bs "$-2" ++ crlf]) = RPanic.
Proof.
  split; [|vm_compute; reflexivity].
  apply (bh_arr 3 [MInt 7] (bs "*1" ++ crlf ++ bs "$-2" ++ crlf)); [vm_compute; intuition discriminate|cbn; lia|constructor; [vm_compute; intuition discriminate|constructor]|].
  apply (bh_arr 1 [] (bs "$-2" ++ crlf)); [vm_compute; intuition discriminate|cbn; lia|constructor|].
  apply (bh_bulk (-2) []); [vm_compute; intuition discriminate|lia].
Qed.
Print Assumptions C59_bad_header_panics_refuted.
