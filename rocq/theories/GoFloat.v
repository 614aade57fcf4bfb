(** * GoFloat: the part of Go's float64 / strconv library the code relies on

    [float64] is [SpecFloat.spec_float] (IEEE binary64 with a single NaN).
    The code calls [strconv.ParseFloat(s, 64)] (cache/cachestring.go:20,
    redis/command.go:57, redis/rdb/rdb.go:204) and
    [strconv.FormatFloat(f, 'f', -1, 64)] (cache/cachestring.go:78,
    cache/cachehash.go:220,246, redis/replication.go:385, redis/redis.go:187).
    Both are Go library functions (Go 1.13 semantics, the version in go.mod); they
    are modelled from their documented contract: correctly rounded parsing and
    shortest round-tripping decimal output. *)
From Verif Require Import Base.
From Coq Require Export Floats.SpecFloat.

Notation f64 := spec_float.
Definition f64_valid (f : f64) : bool := valid_binary 53 1024 f.
Definition f64_add (x y : f64) : f64 := SFadd 53 1024 x y.
(** Conversion [float64(n)] of an integer. *)
Definition f64_of_int (n : Z) : f64 := binary_normalize 53 1024 n 0 false.

(** Correct rounding (nearest even) of [(-1)^neg * n / d], [n >= 0], [d > 0]. *)
Definition round_ratio (neg : bool) (n d : Z) : f64 :=
  if n =? 0 then S754_zero neg
  else let '(mz, ez, lz) := SFdiv_core_binary 53 1024 n 0 d 0 in
       binary_round_aux 53 1024 neg mz ez lz.

(** Correct rounding of [(-1)^neg * m * 10^e]. *)
Definition round_dec (neg : bool) (m e : Z) : f64 :=
  if 0 <=? e then round_ratio neg (m * 10 ^ e) 1 else round_ratio neg m (10 ^ (- e)).

(** Correct rounding of [(-1)^neg * m * 2^e]. *)
Definition round_bin (neg : bool) (m e : Z) : f64 :=
  if 0 <=? e then round_ratio neg (m * 2 ^ e) 1 else round_ratio neg m (2 ^ (- e)).

(** ** strconv.ParseFloat *)

Definition eq_nocase (s : gostr) (t : string) : bool := bool_decide (to_lower s = bs t).

(** strconv/atof.go special: inf, infinity, nan, any case, optional sign (not on nan). *)
Definition special_float (s : gostr) : option f64 :=
  if eq_nocase s "+inf" || eq_nocase s "+infinity" || eq_nocase s "inf" || eq_nocase s "infinity"
  then Some (S754_infinity false)
  else if eq_nocase s "-inf" || eq_nocase s "-infinity" then Some (S754_infinity true)
  else if eq_nocase s "nan" then Some S754_nan
  else None.

Definition hex_val (b : byte) : option Z :=
  if is_digit b then Some (digit_val b)
  else let l := b2z (lower_byte b) in
       if (97 <=? l) && (l <=? 102) then Some (l - 87) else None.

Definition digit_of (hex : bool) (b : byte) : option Z :=
  if hex then hex_val b else if is_digit b then Some (digit_val b) else None.

(** strconv/atof.go readFloat, mantissa loop.  Returns (mantissa, number of digits
    after the dot, saw a digit, saw an underscore, rest). *)
Fixpoint scan_mant (hex : bool) (s : gostr) (m nf : Z) (dot dig und : bool)
  : Z * Z * bool * bool * gostr :=
  match s with
  | [] => (m, nf, dig, und, [])
  | c :: r =>
    if b2z c =? 95 then scan_mant hex r m nf dot dig true
    else if b2z c =? 46 then
      if dot then (m, nf, dig, und, s) else scan_mant hex r m nf true dig und
    else match digit_of hex c with
         | Some d => scan_mant hex r (m * (if hex then 16 else 10) + d) (if dot then nf + 1 else nf) dot true und
         | None => (m, nf, dig, und, s)
         end
  end.

(** readFloat, exponent digits; the exponent stops growing at 10000. *)
Fixpoint scan_exp (s : gostr) (e : Z) (und : bool) : Z * bool * gostr :=
  match s with
  | [] => (e, und, [])
  | c :: r =>
    if b2z c =? 95 then scan_exp r e true
    else if is_digit c then scan_exp r (if e <? 10000 then e * 10 + digit_val c else e) und
    else (e, und, s)
  end.

(** strconv underscoreOK: underscores only between digits (or after a base prefix). *)
Inductive saw := SawStart | SawDigit | SawUnd | SawOther.
Fixpoint und_ok (hex : bool) (st : saw) (s : gostr) : bool :=
  match s with
  | [] => match st with SawUnd => false | _ => true end
  | c :: r =>
    if is_digit c || (hex && match hex_val c with Some _ => true | None => false end) then und_ok hex SawDigit r
    else if b2z c =? 95 then match st with SawDigit => und_ok hex SawUnd r | _ => false end
    else match st with SawUnd => false | _ => und_ok hex SawOther r end
  end.

Definition strip_sign (s : gostr) : bool * gostr :=
  match s with
  | b :: r => if b2z b =? 45 then (true, r) else if b2z b =? 43 then (false, r) else (false, s)
  | [] => (false, s)
  end.

(** "0x"/"0X" prefix followed by at least one more character. *)
Definition strip_hex (s : gostr) : bool * gostr :=
  match s with
  | a :: b :: r =>
    if (b2z a =? 48) && (b2z (lower_byte b) =? 120) && negb (bool_decide (r = [])) then (true, r) else (false, s)
  | _ => (false, s)
  end.

(** underscoreOK on the unsigned text, with its base prefix (0b, 0o, 0x) counted as a digit. *)
Definition und_ok_top (s : gostr) : bool :=
  match s with
  | a :: b :: r =>
    let l := b2z (lower_byte b) in
    if (b2z a =? 48) && ((l =? 98) || (l =? 111) || (l =? 120)) then und_ok (l =? 120) SawDigit r
    else und_ok false SawStart s
  | _ => und_ok false SawStart s
  end.

(** strconv/atof.go: [None] is a syntax error; a result out of range is an infinity. *)
Definition read_float_full (s0 : gostr) : option f64 :=
  let '(neg, s) := strip_sign s0 in
  let '(hex, body) := strip_hex s in
  let '(m, nf, dig, und, rest) := scan_mant hex body 0 0 false false false in
  if negb dig then None else
  let fin (e : Z) (und : bool) (rest : gostr) : option f64 :=
    if negb (bool_decide (rest = [])) then None
    else if und && negb (und_ok_top s) then None
    else Some (if hex then round_bin neg m (e - 4 * nf) else round_dec neg m (e - nf)) in
  match rest with
  | c :: r =>
    if b2z (lower_byte c) =? (if hex then 112 else 101) then
      let '(eneg, r1) := strip_sign r in
      match r1 with
      | d :: _ => if is_digit d then
                    let '(e, und2, rest2) := scan_exp r1 0 und in
                    fin (if eneg then - e else e) und2 rest2
                  else None
      | [] => None
      end
    else None
  | [] => if hex then None else fin 0 und []
  end.

Definition read_float (s : gostr) : option f64 :=
  match read_float_full s with
  | Some (S754_infinity _) => None       (* ErrRange *)
  | x => x
  end.

(** [strconv.ParseFloat(s, 64)] with [None] for a non-nil error. *)
Definition parse_float (s : gostr) : option f64 :=
  match special_float s with
  | Some f => Some f
  | None => read_float s
  end.

(** The number [strconv.ParseFloat] returns, also beside an error. *)
Definition parse_float_val (s : gostr) : f64 :=
  match special_float s with
  | Some f => f
  | None => match read_float_full s with Some f => f | None => S754_zero false end
  end.

(** ** strconv.FormatFloat(f, 'f', -1, 64) *)

(** [m * 10^q] in plain positional notation. *)
Definition pad_left (n : nat) (s : gostr) : gostr := repeat (digit 0) (n - length s)%nat ++ s.
Definition fmt_dec (m q : Z) : gostr :=
  if 0 <=? q then dec (m * 10 ^ q)
  else dec (m / 10 ^ (- q)) ++ z2b 46 :: pad_left (Z.to_nat (- q)) (dec (m mod 10 ^ (- q))).

Definition f64_eqb (a b : f64) : bool :=
  match a, b with
  | S754_zero s, S754_zero t => Bool.eqb s t
  | S754_infinity s, S754_infinity t => Bool.eqb s t
  | S754_nan, S754_nan => true
  | S754_finite s m e, S754_finite s' m' e' => Bool.eqb s s' && Pos.eqb m m' && Z.eqb e e'
  | _, _ => false
  end.

(** Search for the shortest prefix (rounded down or up) of the exact decimal expansion
    [d * 10^(-k)] that parses back to [f]; [drop] is the number of trailing digits cut. *)
Fixpoint shortest (f : f64) (d k : Z) (drop : nat) : Z * Z :=
  let p := 10 ^ Z.of_nat drop in
  let q := Z.of_nat drop - k in
  let lo := d / p in
  let dn := f64_eqb (round_dec false lo q) f in
  let up := f64_eqb (round_dec false (lo + 1) q) f in
  match drop with
  | O => (d, - k)
  | S drop' =>
    if dn && up then
      let r := d mod p in
      (if (2 * r <? p) || ((2 * r =? p) && Z.even lo) then lo else lo + 1, q)
    else if dn then (lo, q)
    else if up then (lo + 1, q)
    else shortest f d k drop'
  end.

Definition format_abs (m : positive) (e : Z) : gostr :=
  let '(d, k) := if 0 <=? e then (Z.pos m * 2 ^ e, 0) else (Z.pos m * 5 ^ (- e), - e) in
  let '(c, q) := shortest (S754_finite false m e) d k (length (dec d) - 1) in
  fmt_dec c q.

Definition format_float (f : f64) : gostr :=
  match f with
  | S754_nan => bs "NaN"
  | S754_infinity false => bs "+Inf"
  | S754_infinity true => bs "-Inf"
  | S754_zero false => bs "0"
  | S754_zero true => bs "-0"
  | S754_finite s m e => if s then z2b 45 :: format_abs m e else format_abs m e
  end.
