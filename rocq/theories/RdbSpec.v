(** * RdbSpec: the RDB file format as bytes, and what replaying a snapshot should do; independently of the
    code (rdb.h and rdb.c of Redis) *)
From stdpp Require Import gmap.
From Verif Require Import Base GoFloat LzfSpec PackedSpec.

(** ** lengths: 6 bits, 14 bits, 32 bits, 64 bits, big-endian; the shortest form is used *)
Definition be (w : nat) (n : Z) : gostr := rev (le w n).
Definition rdb_len (n : Z) : gostr :=
  if n <? 64 then [z2b n]
  else if n <? 16384 then [z2b (64 + n / 256); z2b n]
  else if n <? 2 ^ 32 then x80 :: be 4 n
  else x81 :: be 8 n.

(** ** strings: raw, as a small integer, or compressed *)
Inductive rstr := SRaw (s : gostr) | SInt8 (n : Z) | SInt16 (n : Z) | SInt32 (n : Z) | SLzf (ts : list tok).
Definition rstr_text (t : rstr) : gostr :=
  match t with SRaw s => s | SInt8 n | SInt16 n | SInt32 n => itoa n | SLzf ts => text [] ts end.
Definition rstr_enc (t : rstr) : gostr :=
  match t with
  | SRaw s => rdb_len (zlen s) ++ s
  | SInt8 n => xc0 :: le 1 n
  | SInt16 n => xc1 :: le 2 n
  | SInt32 n => xc2 :: le 4 n
  | SLzf ts => xc3 :: rdb_len (zlen (encode ts)) ++ rdb_len (zlen (text [] ts)) ++ encode ts
  end.
Definition rstr_valid (t : rstr) : Prop :=
  match t with
  | SRaw s => zlen s < 2 ^ 64
  | SInt8 n => fits 1 n | SInt16 n => fits 2 n | SInt32 n => fits 4 n
  | SLzf ts => ts <> [] /\ tok_ok 0 ts /\ zlen (encode ts) < 2 ^ 32 /\ zlen (text [] ts) < 2 ^ 32
  end.

(** ** doubles: the eight bytes of the binary form, little-endian *)
Definition f64_bits (f : f64) : Z :=
  match f with
  | S754_zero s => if s then 2 ^ 63 else 0
  | S754_infinity s => (if s then 2 ^ 63 else 0) + 2047 * 2 ^ 52
  | S754_nan => 2047 * 2 ^ 52 + 2 ^ 51
  | S754_finite s m e =>
    (if s then 2 ^ 63 else 0) + (if Z.pos m <? 2 ^ 52 then Z.pos m else (e + 1075) * 2 ^ 52 + (Z.pos m - 2 ^ 52))
  end.
Definition f64_enc (f : f64) : gostr := le 8 (f64_bits f).
(** the markers of the text form, and a finite number as text *)
Definition mark_nan : byte := xfd.
Definition mark_pinf : byte := xfe.
Definition mark_ninf : byte := xff.
Definition score_enc (t : gostr) : gostr := z2b (zlen t) :: t.

(** ** values; a packed value is a string [w] whose text is the packed form of the elements *)
Inductive rval :=
| VStr (v : rstr)
| VList (l : list rstr) | VSet (l : list rstr)
| VZSet (l : list (rstr * gostr))                        (* members and the texts of their scores *)
| VHash (l : list (rstr * rstr))
| VQuick (l : list (rstr * (Z * list zentry)))           (* nodes *)
| VListZip (w : rstr) (tail : Z) (l : list zentry)
| VHashZip (w : rstr) (tail : Z) (l : list zentry)
| VZSetZip (w : rstr) (tail : Z) (l : list zentry)
| VIntSet (w : rstr) (width : nat) (l : list Z)
| VZipMap (w : rstr) (l : list zpair).
(** opcodes before and between the keys *)
Inductive item :=
| IAux (k v : rstr) | ISelect (db : Z) | IResize (a b : Z) | IExpireS (t : Z) | IExpireMs (t : Z)
| IFreq (b : byte) | IIdle (n : Z) | IKey (k : rstr) (v : rval).

(** the bytes of an item: plain bytes and strings *)
Inductive piece := PBytes (s : gostr) | PStr (t : rstr).
Definition piece_enc (p : piece) : gostr := match p with PBytes s => s | PStr t => rstr_enc t end.
Definition penc (ps : list piece) : gostr := concat (map piece_enc ps).
Definition val_type (v : rval) : byte :=
  match v with
  | VStr _ => x00 | VList _ => x01 | VSet _ => x02 | VZSet _ => x03 | VHash _ => x04 | VQuick _ => x0e
  | VListZip _ _ _ => x0a | VHashZip _ _ _ => x0d | VZSetZip _ _ _ => x0c | VIntSet _ _ _ => x0b | VZipMap _ _ => x09
  end.
Definition val_pieces (v : rval) : list piece :=
  match v with
  | VStr v => [PStr v]
  | VList l | VSet l => PBytes (rdb_len (zlen l)) :: map PStr l
  | VZSet l => PBytes (rdb_len (zlen l)) :: flat_map (fun '(m, t) => [PStr m; PBytes (score_enc t)]) l
  | VHash l => PBytes (rdb_len (zlen l)) :: flat_map (fun '(f, v) => [PStr f; PStr v]) l
  | VQuick l => PBytes (rdb_len (zlen l)) :: map (fun '(w, _) => PStr w) l
  | VListZip w _ _ | VHashZip w _ _ | VZSetZip w _ _ | VIntSet w _ _ | VZipMap w _ => [PStr w]
  end.
Definition item_pieces (i : item) : list piece :=
  match i with
  | IAux k v => [PBytes [xfa]; PStr k; PStr v]
  | ISelect db => [PBytes [xfe]; PBytes (rdb_len db)]
  | IResize a b => [PBytes [xfb]; PBytes (rdb_len a); PBytes (rdb_len b)]
  | IExpireS t => [PBytes [xfd]; PBytes (le 4 t)]
  | IExpireMs t => [PBytes [xfc]; PBytes (le 8 t)]
  | IFreq b => [PBytes [xf9]; PBytes [b]]
  | IIdle n => [PBytes [xf8]; PBytes (rdb_len n)]
  | IKey k v => PBytes [val_type v] :: PStr k :: val_pieces v
  end.
Definition items_pieces (l : list item) : list piece := flat_map item_pieces l.
(** a snapshot: nine bytes of version, the items, the end marker, and a check sum *)
Definition rdb_file (version : gostr) (l : list item) (sum : gostr) : gostr :=
  version ++ penc (items_pieces l) ++ [xff] ++ sum.

(** ** raw strings in 4096-byte blocks of the file *)
Definition one_block (p n : Z) : Prop := n = 0 \/ exists k, 4096 * k <= p /\ p + n <= 4096 * (k + 1).
Definition piece_fits (p : Z) (x : piece) : Prop :=
  match x with PStr (SRaw s) => one_block (p + zlen (rdb_len (zlen s))) (zlen s) | _ => True end.
Fixpoint pieces_fit (p : Z) (ps : list piece) : Prop :=
  match ps with [] => True | x :: r => piece_fits p x /\ pieces_fit (p + zlen (piece_enc x)) r end.
(** no raw string of the snapshot crosses a 4096-byte boundary of the file *)
Definition unsplit (l : list item) : Prop := pieces_fit 9 (items_pieces l).

(** ** what is replayed: the commands with the database each belongs to *)
Definition list_cmd (name : string) (key : rstr) (l : list gostr) : list gostr := bs name :: rstr_text key :: l.
Definition score_text (t : gostr) : gostr := match parse_float t with Some f => format_float f | None => [] end.
(** The deadline a key was given, and each key's database and value, in file order: the content of the snapshot. *)
Record skey := SKey { sk_db : Z; sk_key : gostr; sk_val : rval; sk_ms : option Z }.
Fixpoint snapshot (db : Z) (exp : option Z) (l : list item) : list skey :=
  match l with
  | [] => []
  | ISelect d :: r => snapshot d exp r
  | IExpireS t :: r => snapshot db (Some (1000 * t)) r
  | IExpireMs t :: r => snapshot db (Some t) r
  | IKey k v :: r => SKey db (rstr_text k) v exp :: snapshot db None r
  | _ :: r => snapshot db exp r
  end.
(** how a list changes under the commands that push to it *)
Definition push_effect (cmd : list gostr) (l : list gostr) : list gostr :=
  match cmd with
  | name :: _ :: vs => if gostr_eqb (to_lower name) (bs "rpush") then l ++ vs
                       else if gostr_eqb (to_lower name) (bs "lpush") then rev vs ++ l else l
  | _ => l
  end.

(** ** the part of the format within the sizes and signs the code handles *)
Definition len_small (n : Z) : Prop := 0 <= n < 16384.
Definition str_small (t : rstr) : Prop :=
  match t with
  | SRaw s => len_small (zlen s)
  | SInt8 n => fits 1 n
  | SInt16 n => 0 <= n < 2 ^ 15
  | SInt32 n => 0 <= n < 2 ^ 31
  | SLzf ts => ts <> [] /\ tok_ok 0 ts /\ zlen (encode ts) < 4096 /\ zlen (text [] ts) < 16384
  end.
Definition zentry_small (e : zentry) : Prop := match e with ZStr s => zlen s < 64 | ZImm n => 0 <= n <= 12 | _ => False end.
Definition score_small (t : gostr) : Prop := zlen t < 253 /\ parse_float t <> None.
Definition val_small (v : rval) : Prop :=
  match v with
  | VStr v => str_small v
  | VList l | VSet l => len_small (zlen l) /\ Forall str_small l
  | VZSet l => len_small (zlen l) /\ Forall (fun '(m, t) => str_small m /\ score_small t) l
  | VHash l => len_small (zlen l) /\ Forall (fun '(f, v) => str_small f /\ str_small v) l
  | VQuick l => len_small (zlen l) /\ Forall (fun '(w, (tail, es)) => str_small w /\ rstr_text w = ziplist_enc tail es /\ Forall zentry_small es) l
  | VListZip w tail es | VHashZip w tail es => str_small w /\ rstr_text w = ziplist_enc tail es /\ Forall zentry_small es
  | VZSetZip w tail es => str_small w /\ rstr_text w = ziplist_enc tail es /\ Forall zentry_small es /\ Nat.Even (length es)
  | VIntSet w width l => str_small w /\ rstr_text w = intset_enc width l /\ (width = 2%nat \/ width = 4%nat \/ width = 8%nat) /\
      zlen l < 2 ^ 32 /\ Forall (fits width) l /\ (width = 8%nat \/ Forall (fun n => 0 <= n) l)
  | VZipMap w l => str_small w /\ rstr_text w = zipmap_enc l /\ Forall zpair_ok l /\ zlen l <= 1
  end.
Definition item_small (i : item) : Prop :=
  match i with
  | IAux k v => str_small k /\ str_small v /\ (rstr_text k = bs "repl-offset" -> atoi (rstr_text v) <> None)
  | ISelect db => len_small db
  | IResize a b => len_small a /\ len_small b
  | IExpireS t => 0 <= t < 2 ^ 32
  | IExpireMs t => 0 <= t < 2 ^ 63
  | IFreq _ => True
  | IIdle n => len_small n
  | IKey k v => str_small k /\ rstr_text k <> [] /\ val_small v
  end.

(** what the code replays for a value: the command, as it is *)
Definition val_cmd (key : gostr) (v : rval) : list gostr :=
  match v with
  | VStr v => [bs "set"; key; rstr_text v]
  | VList l => bs "lPush" :: key :: map rstr_text l
  | VSet l => bs "sAdd" :: key :: map rstr_text l
  | VZSet l => bs "zAdd" :: key :: flat_map (fun '(m, t) => [rstr_text m; score_text t]) l
  | VHash l => bs "zAdd" :: key :: flat_map (fun '(f, v) => [rstr_text f; rstr_text v]) l
  | VQuick l => bs "rPush" :: key :: flat_map (fun '(_, (_, es)) => map zentry_text es) l
  | VListZip _ _ es => bs "rPush" :: key :: map zentry_text es
  | VHashZip _ _ es => bs "hmSet" :: key :: map zentry_text es
  | VZSetZip _ _ es => bs "zAdd" :: key :: map zentry_text es
  | VIntSet _ _ l => bs "sAdd" :: key :: map itoa l
  | VZipMap _ l => bs "hmSet" :: key :: flat_map (fun p => [zp_key p; zp_val p]) l
  end.
(** the commands for a snapshot: each key's, followed by its deadline unless that is 0; [ms] is how a
    deadline in seconds is converted *)
Fixpoint replay (ms : Z -> Z) (db exp : Z) (l : list item) : list (Z * list gostr) :=
  match l with
  | [] => []
  | ISelect d :: r => replay ms d exp r
  | IExpireS t :: r => replay ms db (ms t) r
  | IExpireMs t :: r => replay ms db t r
  | IKey k v :: r =>
    (db, val_cmd (rstr_text k) v) :: (if exp >? 0 then [(db, [bs "pExpire"; rstr_text k; itoa exp])] else []) ++ replay ms db 0 r
  | _ :: r => replay ms db exp r
  end.
