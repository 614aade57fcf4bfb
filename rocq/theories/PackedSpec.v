(** * PackedSpec: the packed encodings of Redis as byte formats, independently of the code
    (intset.h, ziplist.c and zipmap.c of Redis, as quoted in the comments of the Go files) *)
From Verif Require Import Base.

(** little-endian two's complement in [w] bytes *)
Definition le (w : nat) (n : Z) : gostr := map (fun i => z2b (n / 2 ^ (8 * Z.of_nat i))) (seq 0 w).
Definition fits (w : nat) (n : Z) : Prop := - 2 ^ (8 * Z.of_nat w - 1) <= n < 2 ^ (8 * Z.of_nat w - 1).

(** an integer set: encoding width, count, elements *)
Definition intset_enc (w : nat) (l : list Z) : gostr := le 4 (Z.of_nat w) ++ le 4 (zlen l) ++ concat (map (le w) l).

(** ziplist entries, and the text Redis reads from them *)
Inductive zentry := ZStr (s : gostr) | ZImm (n : Z) | ZInt8 (n : Z) | ZInt16 (n : Z) | ZInt24 (n : Z) | ZInt32 (n : Z) | ZInt64 (n : Z).
Definition zentry_text (e : zentry) : gostr :=
  match e with ZStr s => s | ZImm n | ZInt8 n | ZInt16 n | ZInt24 n | ZInt32 n | ZInt64 n => itoa n end.
Definition zentry_ok (e : zentry) : Prop :=
  match e with
  | ZStr s => zlen s < 2 ^ 32
  | ZImm n => 0 <= n <= 12
  | ZInt8 n => fits 1 n | ZInt16 n => fits 2 n | ZInt24 n => fits 3 n | ZInt32 n => fits 4 n | ZInt64 n => fits 8 n
  end.
Definition be32 (n : Z) : gostr := rev (le 4 n).
Definition zentry_body (e : zentry) : gostr :=
  match e with
  | ZStr s =>
    (if zlen s <? 64 then [z2b (zlen s)]
     else if zlen s <? 16384 then [z2b (64 + zlen s / 256); z2b (zlen s)]
     else x80 :: be32 (zlen s)) ++ s
  | ZImm n => [z2b (241 + n)]
  | ZInt8 n => xfe :: le 1 n
  | ZInt16 n => xc0 :: le 2 n
  | ZInt24 n => xf0 :: le 3 n
  | ZInt32 n => xd0 :: le 4 n
  | ZInt64 n => xe0 :: le 8 n
  end.
Definition prevlen (n : Z) : gostr := if n <? 254 then [z2b n] else xfe :: le 4 n.
Fixpoint zentries (prev : Z) (l : list zentry) : gostr :=
  match l with
  | [] => []
  | e :: r => let b := prevlen prev ++ zentry_body e in b ++ zentries (zlen b) r
  end.
(** total size, offset of the last entry (both unused by readers), count (saturating), entries, end *)
Definition ziplist_enc (tail : Z) (l : list zentry) : gostr :=
  let es := zentries 0 l in le 4 (11 + zlen es) ++ le 4 tail ++ le 2 (Z.min (zlen l) 65535) ++ es ++ [xff].

(** zipmap: count (254 when unknown), then key length, key, value length, free length, value, free bytes *)
Definition zlength (n : Z) : gostr := if n <? 254 then [z2b n] else xfe :: le 4 n.
Record zpair := ZPair { zp_key : gostr; zp_val : gostr; zp_free : gostr }.
Definition zpair_ok (p : zpair) : Prop := zlen (zp_key p) < 2 ^ 32 /\ zlen (zp_val p) < 2 ^ 32 /\ zlen (zp_free p) < 254.
Definition zpair_enc (p : zpair) : gostr :=
  zlength (zlen (zp_key p)) ++ zp_key p ++ zlength (zlen (zp_val p)) ++ [z2b (zlen (zp_free p))] ++ zp_val p ++ zp_free p.
Definition zipmap_enc (l : list zpair) : gostr := z2b (Z.min (zlen l) 254) :: concat (map zpair_enc l) ++ [xff].
Definition zipmap_map (l : list zpair) : gmap gostr gostr := foldl (fun m p => <[zp_key p := zp_val p]> m) ∅ l.
