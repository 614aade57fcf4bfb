(** * PackedModel: Redis' packed encodings (redis/intset/intset.go, redis/ziplist/ziplist.go,
    redis/zipmap/zipmap.go)

    [None] is a panic (index or slice out of range, or an explicit panic). Integers are [Z]; the
    only arithmetic that can leave its type here is the shifting of single bytes, which is modelled
    as it is ([shl8]). Positions are far below 2^63. *)
From Verif Require Import Base.

Definition obind {A B} (x : option A) (k : A -> option B) : option B := match x with Some a => k a | None => None end.
Notation "x <-? a ;; b" := (obind a (fun x => b)) (at level 80, a at level 79, b at level 200, right associativity).

(** s[i] *)
Definition at_ (s : gostr) (i : Z) : option Z := if i <? 0 then None else match s !! Z.to_nat i with Some b => Some (b2z b) | None => None end.
(** s[a:b] *)
Definition slice (s : gostr) (a b : Z) : option gostr :=
  if (0 <=? a) && (a <=? b) && (b <=? zlen s) then Some (take (Z.to_nat (b - a)) (drop (Z.to_nat a) s)) else None.
(** binary.LittleEndian.UintN *)
Fixpoint le_val (s : gostr) : Z := match s with [] => 0 | b :: r => b2z b + 256 * le_val r end.
Definition le_at (s : gostr) (i n : Z) : option Z := t <-? slice s i (i + n);; Some (le_val t).
(** [x << n] for a uint8 *)
Definition shl8 (x n : Z) : Z := Z.shiftl x n mod 256.

(** ** intset.go *)
(** :23-29, 31-37, 39-45: [k] elements of [w] bytes each, from the [i]-th on; [int64] of a uint64 wraps *)
Fixpoint intset_elems (k : nat) (w : Z) (encoded : gostr) (i : Z) : option (list Z) :=
  match k with
  | O => Some []
  | S k => v <-? le_at encoded (8 + w * i) w;; r <-? intset_elems k w encoded (i + 1);; Some (wrap64 v :: r)
  end.
(** :17-49 Load; an unknown encoding gives the empty set *)
Definition intset_load (encoded : gostr) : option (list Z) :=
  enc <-? le_at encoded 0 4;;
  length <-? le_at encoded 4 4;;
  if (enc =? 2) || (enc =? 4) || (enc =? 8) then intset_elems (Z.to_nat length) enc encoded 0 else Some [].

(** ** ziplist.go *)
(** :138-145 decode *)
Definition zl_decode (val : gostr) (pos : Z) : option Z :=
  e <-? at_ val pos;; Some (if e <? 192 then Z.land e 192 else e).
(** :71-81 prevLength: only its size is used *)
Definition zl_prev (val : gostr) (pos : Z) : option Z :=
  l <-? at_ val pos;;
  if l >=? 254 then _x <-? slice val (pos + 1) (pos + 5);; Some 5 else Some 1.
(** :86-132 entry: (length, size, str) *)
Definition zl_entry (val : gostr) (pos : Z) : option (Z * Z * gostr) :=
  encoding <-? zl_decode val pos;;
  x <-? (if encoding <? 192 then
          if encoding =? 0 then b <-? at_ val pos;; Some (1, Z.land b 63, [])
          else if encoding =? 64 then
            b0 <-? at_ val pos;; b1 <-? at_ val (pos + 1);; Some (2, Z.lor (shl8 (Z.land b0 63) 8) b1, [])
          else if encoding =? 128 then
            b1 <-? at_ val (pos + 1);; b2 <-? at_ val (pos + 2);; b3 <-? at_ val (pos + 3);; b4 <-? at_ val (pos + 4);;
            Some (5, Z.lor (Z.lor (Z.lor (shl8 b1 24) (shl8 b2 16)) (shl8 b3 8)) b4, [])
          else None
        else if encoding =? 254 then Some (1, 1, [])
        else if encoding =? 192 then Some (1, 2, [])
        else if encoding =? 240 then Some (1, 3, [])
        else if encoding =? 208 then Some (1, 4, [])
        else if encoding =? 224 then Some (1, 5, [])
        else if (241 <=? encoding) && (encoding <=? 253) then Some (1, 0, itoa (Z.land encoding 15 - 1))
        else None);;
  let '(size, length, str) := x in
  if length >? 0 then s <-? slice val (pos + 1) (pos + length + 1);; Some (length, size, s)
  else Some (length, size, str).
(** :56-69 Next: [Some None] at the end marker *)
Definition zl_next (val : gostr) (pos : Z) : option (option (gostr * Z)) :=
  b <-? at_ val pos;;
  if b =? 255 then Some None
  else
    psize <-? zl_prev val pos;;
    x <-? zl_entry val (pos + psize);;
    let '(length, size, str) := x in Some (Some (str, pos + psize + (length + size))).
(** :147-155 Load; every Next moves on by at least two bytes, so the recursion never runs out *)
Fixpoint zl_loop (fuel : nat) (val : gostr) (pos : Z) : option (list gostr) :=
  match fuel with
  | O => None
  | S f => r <-? zl_next val pos;;
           match r with None => Some [] | Some (s, pos') => l <-? zl_loop f val pos';; Some (s :: l) end
  end.
Definition ziplist_load (encoded : gostr) : option (list gostr) := zl_loop (S (length encoded)) encoded 10.
(** :40-44 Length *)
Definition ziplist_length (val : gostr) : option Z := le_at val 8 2.

(** ** zipmap.go *)
(** zipmap.go:17-19: the bytes of [value] and its capacity. Between its length and its capacity the array holds zeros:
    append clears what it does not fill, and [value] never gets shorter. *)
Record zm := Zm { zm_val : gostr; zm_cap : nat }.
Definition zm_array (z : zm) : gostr := zm_val z ++ repeat x00 (zm_cap z - length (zm_val z)).
(** Go append; [grow capacity needed] is the capacity Go gives a slice that does not fit *)
Definition zm_append (grow : nat -> nat -> nat) (z : zm) (xs : gostr) : zm :=
  let n := (length (zm_val z) + length xs)%nat in Zm (zm_val z ++ xs) (if (n <=? zm_cap z)%nat then zm_cap z else Nat.max n (grow (zm_cap z) n)).
(** :31-33 New *)
Definition zm_new : zm := Zm [x00; xff] 2.
Fixpoint le_bytes (k : nat) (n : Z) : gostr := match k with O => [] | S k => z2b n :: le_bytes k (n / 256) end.
(** :44-51, :61-68: a length *)
Definition zm_len (s : gostr) : gostr := if zlen s >=? 254 then xfe :: le_bytes 4 (zlen s) else [z2b (zlen s)].
(** a length byte at [i], followed by four bytes when it is at least 254: the length and the position after it. [v] is
    what can be indexed and [a] what can be sliced, which is more for a []byte: up to its capacity *)
Definition zm_read_len (a v : gostr) (i : Z) : option (Z * Z) :=
  b <-? at_ v i;; if b >=? 254 then n <-? le_at a (i + 1) 4;; Some (n, i + 1 + 4) else Some (b, i + 1).
(** :105-145 Lookup; the loop test and its [i++] included *)
Fixpoint zm_lookup_loop (fuel : nat) (z : zm) (key : gostr) (i : Z) : option (Z * bool) :=
  match fuel with
  | O => None
  | S f =>
    let v := zm_val z in
    if i <? zlen v then
      e <-? at_ v i;;
      if e =? 255 then Some (zlen v, false)
      else
        x <-? zm_read_len (zm_array z) v i;; let '(kl, i) := x in
        k <-? slice (zm_array z) i (i + kl);;
        if gostr_eqb key k then Some (i, true)
        else
          y <-? zm_read_len (zm_array z) v (i + kl);; let '(vl, i) := y in
          y <-? zm_read_len (zm_array z) v i;; let '(vfl, i) := y in
          zm_lookup_loop f z key (i + vl + vfl + 1)
    else Some (zlen v, false)
  end.
Definition zm_lookup (z : zm) (key : gostr) : option (Z * bool) := zm_lookup_loop (S (length (zm_val z))) z key 1.
(** :39-87 Set (writing to a bytes.Buffer does not fail) *)
Definition zm_set (grow : nat -> nat -> nat) (z : zm) (key value : gostr) : option zm :=
  x <-? zm_lookup z key;;
  if snd x : bool then Some z
  else
    match zm_val z with
    | [] => None                                                                   (* :76 value[:-1] *)
    | v =>
      let z1 := zm_append grow (Zm (take (length v - 1) v) (zm_cap z)) (zm_len key ++ key ++ zm_len value ++ value) in
      let z2 := zm_append grow z1 [xff] in
      match zm_val z2 with [] => None | b :: r => Some (Zm (if b2z b <? 254 then z2b (b2z b + 1) :: r else b :: r) (zm_cap z2)) end
    end.
(** :35-37, :27-29: Iterate returns the zero iterator, whose Next returns zero values; :89-91 Del; :93-95 Get; :97-99 Len; :101-103 BlobLen *)
Definition zm_next (z : zm) : gostr * bool := ([], false).
Definition zm_del (z : zm) (key : gostr) : zm := z.
Definition zm_get (z : zm) (key : gostr) : gostr * bool := ([], false).
Definition zm_length (z : zm) : Z := 0.
Definition zm_blob_len (z : zm) : Z := 0.
(** :147-158 Len *)
Definition zipmap_len (key value : gostr) : Z :=
  zlen key + zlen value + 3 + (if zlen key >=? 254 then 4 else 0) + (if zlen value >=? 254 then 4 else 0).
(** :160-199 Load: the pairs in the order in which they are stored into the map *)
Fixpoint zm_load_loop (fuel : nat) (v : gostr) (i : Z) : option (list (gostr * gostr)) :=
  match fuel with
  | O => None
  | S f =>
    if i <? zlen v - 1 then
      x <-? zm_read_len v v i;; let '(kl, i) := x in
      key <-? slice v i (i + kl);;
      y <-? zm_read_len v v (i + kl);; let '(vl, i) := y in
      z <-? zm_read_len v v i;; let '(vfl, i) := z in
      value <-? slice v i (i + vl);;
      r <-? zm_load_loop f v (i + vl + vfl + 1);;
      Some ((key, value) :: r)
    else Some []
  end.
Definition zm_load_pairs (v : gostr) : option (list (gostr * gostr)) :=
  _b <-? at_ v 0;; zm_load_loop (S (length v)) v 1.
(** the resulting map: later pairs replace earlier ones *)
Definition zipmap_load (v : gostr) : option (gmap gostr gostr) :=
  l <-? zm_load_pairs v;; Some (foldl (fun m x => <[fst x := snd x]> m) ∅ l).
