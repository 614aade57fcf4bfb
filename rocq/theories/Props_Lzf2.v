(** * When Compress gives up (C158) *)
From Verif Require Import Base LzfModel LzfSpec LzfLib LzfFit Props_Lzf.

(** ** C158: Compress returns the compressed text whenever that is shorter

    The full statement: if the compressor, given a buffer of any size [m], produces [r] bytes and [r < len(s)], then Compress(s)
    returns these [r] bytes. It is false: 11 bytes that compress to 8 come back unchanged. *)
Theorem C158_saving_lost_refuted : exists s tab r out, lzf_compress s (zlen s) (zeros 100) 100 tab = MOk (r, out) /\ 0 < r < zlen s /\ compress s tab = MOk s.
Proof.
  exists (bs "cabababaaba"), (fun _ => 0), 8. eexists. split; [vm_compute; reflexivity|]. split; [vm_compute; split; reflexivity|]. vm_compute. reflexivity.
Qed.
(** What holds: with at least four bytes to be saved it never gives up. *)
Theorem C158_four_bytes_saved_partial s tab m r out : 2 <= zlen s < 2 ^ 32 -> 0 < m ->
  lzf_compress s (zlen s) (zeros m) m tab = MOk (r, out) -> r <> 0 -> r + 4 <= zlen s -> compress s tab = MOk (take (Z.to_nat r) out).
Proof.
  intros Hs Hm E Hr H4. pose proof (zlen_nonneg s) as Hz.
  assert (Zl : forall n, 0 <= n -> zlen (zeros n) = n) by (intros n Hn; unfold zeros, zlen; rewrite replicate_length; lia).
  assert (Zne : forall n, 0 < n -> zeros n <> []) by (intros n Hn En; pose proof (Zl n ltac:(lia)) as Z0; rewrite En, zlen_nil in Z0; lia).
  assert (Zapp : forall a b, 0 <= a -> 0 <= b -> zeros a ++ zeros b = zeros (a + b)).
  { intros a b Ha Hb. unfold zeros. rewrite <- replicate_add. f_equal. lia. }
  assert (Ec : compress s tab = (x <~ lzf_compress s (zlen s) (zeros (zlen s)) (zlen s) tab;; if fst x =? 0 then MOk s else MOk (take (Z.to_nat (fst x)) (snd x)))).
  { unfold compress, u32. rewrite Z.mod_small by lia. destruct s; [rewrite zlen_nil in Hs; lia|reflexivity]. }
  rewrite Ec. clear Ec.
  destruct (C93_compress_safe s (zeros (zlen s)) tab Hs) as (r0 & out0 & E0 & Hr0 & L0).
  destruct (C93_compress_safe s (zeros m) tab Hs) as (r1 & out1 & E1 & Hr1 & L1). rewrite Zl in E1, Hr1 by lia. rewrite E in E1. injection E1 as <- <-.
  destruct (Z.le_gt_cases (zlen s) m) as [Hle|Hgt].
  - destruct (compress_two s (zlen s) (zeros (zlen s)) (zeros (m - zlen s)) tab r0 out0 E0) as [T1 T2]; [apply Zne; lia|lia|].
    rewrite Zapp in T1, T2 by lia. replace (zlen s + (m - zlen s)) with m in T1, T2 by lia. rewrite (Zl m) in T1, T2 by lia. rewrite (Zl (zlen s)) in T2, E0, Hr0 by lia.
    destruct (Z.eq_dec r0 0) as [->|Hn]; [specialize (T2 eq_refl _ _ E Hr); lia|]. specialize (T1 Hn). rewrite E in T1. injection T1 as -> ->.
    rewrite E0. cbn [mbind fst snd]. destruct (Z.eqb_spec r0 0); [lia|]. rewrite take_app_le; [reflexivity|]. rewrite L0. pose proof (Zl (zlen s)). unfold zlen in *. lia.
  - destruct (compress_two s (zlen s) (zeros m) (zeros (zlen s - m)) tab r out) as [T1 _]; [rewrite Zl by lia; exact E|apply Zne; lia|lia|].
    rewrite Zapp in T1 by lia. replace (m + (zlen s - m)) with (zlen s) in T1 by lia. rewrite Zl in T1 by lia. rewrite (T1 Hr). cbn [mbind fst snd].
    destruct (Z.eqb_spec r 0); [lia|]. rewrite take_app_le; [reflexivity|]. rewrite L1. pose proof (Zl m). unfold zlen in *. lia.
Qed.
(** The size of the buffer decides only whether it suffices: a larger one receives the same bytes. *)
Theorem C158_larger_buffer_partial s tab out more r out' : out <> [] -> r <> 0 -> 2 <= zlen s < 2 ^ 32 ->
  lzf_compress s (zlen s) out (zlen out) tab = MOk (r, out') -> lzf_compress s (zlen s) (out ++ more) (zlen (out ++ more)) tab = MOk (r, out' ++ more).
Proof.
  intros Ho Hr Hs E. destruct (C93_compress_safe s out tab Hs) as (r1 & out1 & E1 & Hr1 & L1). rewrite E in E1. injection E1 as <- <-.
  destruct (compress_two s (zlen s) out more tab r out' E Ho ltac:(lia)) as [H _]. exact (H Hr).
Qed.
Example C158_nonvacuous : exists out, lzf_compress (bs "xaaaaaaaaaaaaaaaaaaaaaaa") 24 (zeros 100) 100 (fun _ => 0) = MOk (9, out) /\
  compress (bs "xaaaaaaaaaaaaaaaaaaaaaaa") (fun _ => 0) = MOk (take 9 out).
Proof. eexists. split; vm_compute; reflexivity. Qed.

Print Assumptions C158_saving_lost_refuted.
Print Assumptions C158_four_bytes_saved_partial.
Print Assumptions C158_larger_buffer_partial.
