(** * RdbModel: reading the RDB encoding (redis/rdb/rdb.go) and replaying a snapshot (redis/replication.go Load)

    The file is read through the bufio.Reader of RespModel. A read can give a value, an error
    (which error is not modelled: every caller only passes it on), a panic, or the end of the
    process ([log.Fatal]). [LFuel] is an artefact of bounded recursion and is proved impossible. *)
From stdpp Require Import gmap.
From Verif Require Import Base GoFloat RespModel LzfModel PackedModel.

Inductive lres (A : Type) := LOk (a : A) (s : rd) | LErr | LPanic | LExit | LFuel.
Arguments LOk {A}. Arguments LErr {A}. Arguments LPanic {A}. Arguments LExit {A}. Arguments LFuel {A}.
Definition lift {A} (x : res A) : lres A :=
  match x with ROk a s => LOk a s | RErr _ _ => LErr | RPanic => LPanic | RFuel => LFuel end.
Definition lbind {A B} (x : lres A) (k : A -> rd -> lres B) : lres B :=
  match x with LOk a s => k a s | LErr => LErr | LPanic => LPanic | LExit => LExit | LFuel => LFuel end.

(** Go library io.ReadFull(reader, buf) with len(buf) = n: Read until n bytes are there or a Read
    fails; [acc] has the bytes read so far. Each successful Read gives at least one byte. *)
Fixpoint read_full_aux (fuel : nat) (n : nat) (acc : gostr) (s : rd) : res gostr :=
  match n with
  | O => ROk acc s
  | _ =>
    match fuel with
    | O => RFuel
    | S f => rbind (read_some n s) (fun d s' => read_full_aux f (n - length d) (acc ++ d) s')
    end
  end.
Definition read_full (n : nat) (s : rd) : res gostr := read_full_aux n n [] s.

(** ** redis/rdb/rdb.go *)
(** rdb.go:27-33 LoadOpCode *)
Definition load_opcode (s : rd) : lres Z := lbind (lift (read_byte s)) (fun b s1 => LOk (b2z b) s1).

(** rdb.go:66-84: the 4 or 8 bytes are read, but written to by binary.Write instead of being decoded;
    the inner [err] shadows the result, so that even a short read is no error. The length stays 0. *)
Definition skip_len (n : nat) (s : rd) : lres (Z * bool) :=
  match read_full n s with
  | ROk _ s' => LOk (0, false) s'
  | RErr _ s' => LOk (0, false) s'
  | RPanic => LPanic
  | RFuel => LFuel
  end.
(** rdb.go:41-91 LoadLen: the length and whether it is really an encoding marker *)
Definition load_len (s : rd) : lres (Z * bool) :=
  lbind (lift (read_byte s)) (fun b s1 =>
  let low := Z.land (b2z b) 63 in
  let top := Z.shiftr (Z.land (b2z b) 192) 6 in
  if top =? 3 then LOk (low, true) s1                                    (* EncVal *)
  else if top =? 0 then LOk (low, false) s1                              (* BitLen6 *)
  else if top =? 1 then                                                  (* BitLen14 *)
    match read_byte s1 with
    | ROk b1 s2 => LOk (low * 256 + b2z b1, false) s2
    | RErr _ _ => LPanic
    | RPanic => LPanic
    | RFuel => LFuel
    end
  else if b2z b =? 128 then skip_len 4 s1                                (* BitLen32 *)
  else if b2z b =? 129 then skip_len 8 s1                                (* BitLen64 *)
  else LErr).

(** Go: the conversion int8(b) of a byte *)
Definition int8_of (b : byte) : Z := (b2z b + 128) mod 256 - 128.
(** lzf.DeCompress as called from rdb.go:156; reading outside the input is undefined behaviour,
    here a panic *)
Definition lift_lzf (x : mres gostr) (s : rd) : lres gostr :=
  match x with MOk t => LOk t s | MFault => LPanic | MFuel => LFuel end.
(** rdb.go:98-172 LoadString *)
Definition load_string (s : rd) : lres gostr :=
  lbind (load_len s) (fun '(len, encoded) s1 =>
  if (encoded : bool) then
    if len =? 0 then lbind (lift (read_byte s1)) (fun b s2 => LOk (itoa (int8_of b)) s2)         (* EncInt8 *)
    else if len =? 1 then lbind (lift (read_full 2 s1)) (fun d s2 => LOk (itoa (le_val d)) s2)   (* EncInt16 *)
    else if len =? 2 then                                                                       (* EncInt32 *)
      match read_full 4 s1 with
      | ROk d s2 => LOk (itoa (le_val d)) s2
      | RErr _ _ => LExit                                                                        (* log.Fatal *)
      | RPanic => LPanic
      | RFuel => LFuel
      end
    else if len =? 3 then                                                                       (* EncLzf *)
      lbind (load_len s1) (fun '(n, _) s2 =>
      lbind (load_len s2) (fun '(m, _) s3 =>
      lbind (lift (read_full (Z.to_nat n) s3)) (fun c s4 => lift_lzf (decompress c m) s4)))
    else LErr
  else lbind (lift (read_some (Z.to_nat len) s1)) (fun d s2 => LOk (padded (Z.to_nat len) d) s2)).

(** rdb.go:179-182: RZero is 1, hence so are 1/RZero and RZero/RZero *)
Definition f_one : f64 := S754_finite false 4503599627370496 (-52).
Definition f_minus_one : f64 := S754_finite true 4503599627370496 (-52).
(** rdb.go:184-206 LoadDouble *)
Definition load_double (s : rd) : lres f64 :=
  lbind (lift (read_byte s)) (fun b s1 =>
  if b2z b =? 255 then LOk f_minus_one s1
  else if b2z b =? 254 then LOk f_one s1
  else if b2z b =? 253 then LOk f_one s1
  else lbind (lift (read_full (Z.to_nat (b2z b)) s1)) (fun d s2 =>
       match parse_float d with Some f => LOk f s2 | None => LErr end)).
(** rdb.go:208-220 LoadBinaryDouble: again binary.Write, so that [f] stays 0 *)
Definition load_binary_double (s : rd) : lres f64 :=
  lbind (lift (read_full 8 s)) (fun _ s1 => LOk (S754_zero false) s1).

(** ** redis/replication.go:171-543 Load *)
(** the loops :319-326, :343-349, :404-415 over [k] strings, [k] pairs of strings *)
Fixpoint load_strings (k : nat) (s : rd) : lres (list gostr) :=
  match k with
  | O => LOk [] s
  | S k => lbind (load_string s) (fun v s1 => lbind (load_strings k s1) (fun l s2 => LOk (v :: l) s2))
  end.
(** :367-386: members with their scores, the score formatted in decimal *)
Fixpoint load_scored (bin : bool) (k : nat) (s : rd) : lres (list gostr) :=
  match k with
  | O => LOk [] s
  | S k => lbind (load_string s) (fun v s1 =>
           lbind (if bin then load_binary_double s1 else load_double s1) (fun f s2 =>
           lbind (load_scored bin k s2) (fun l s3 => LOk (v :: format_float f :: l) s3)))
  end.
(** a panic of the packed decoders *)
Definition lift_opt {A} (x : option A) (s : rd) : lres A := match x with Some a => LOk a s | None => LPanic end.
(** :430-437: the nodes of a quick list, each a ziplist *)
Fixpoint load_nodes (k : nat) (s : rd) : lres (list gostr) :=
  match k with
  | O => LOk [] s
  | S k => lbind (load_string s) (fun v s1 =>
           lbind (lift_opt (ziplist_load v) s1) (fun es s2 =>
           lbind (load_nodes k s2) (fun l s3 => LOk (es ++ l) s3)))
  end.
(** :482-484: an odd last element is dropped *)
Fixpoint even_part (l : list gostr) : list gostr :=
  match l with a :: b :: r => a :: b :: even_part r | _ => [] end.
Definition flat_pairs (l : list (gostr * gostr)) : list gostr := flat_map (fun '(f, v) => [f; v]) l.

Section load.
  (** the order in which [range] visits a map (:456) *)
  Variable range : gmap gostr gostr -> list (gostr * gostr).

  (** :296-527: the command that replays a value of type [op] under [key]; [None] if none is
      emitted, and whether [err] is set (which ends the loop). A type that is not listed reads nothing. *)
  Definition load_value (op : Z) (key : gostr) (s : rd) : lres (option (list gostr) * bool) :=
    let some (name : gostr) (x : lres (list gostr)) := lbind x (fun l s' => LOk (Some (name :: key :: l), false) s') in
    let counted (k : nat -> rd -> lres (list gostr)) := lbind (load_len s) (fun '(n, _) s1 => k (Z.to_nat n) s1) in
    if op =? 0 then some (bs "set") (lbind (load_string s) (fun v s1 => LOk [v] s1))
    else if op =? 1 then some (bs "lPush") (counted load_strings)
    else if op =? 2 then some (bs "sAdd") (counted load_strings)
    else if op =? 3 then some (bs "zAdd") (counted (load_scored false))
    else if op =? 5 then some (bs "zAdd") (counted (load_scored true))
    else if op =? 4 then some (bs "zAdd") (counted (fun n => load_strings (2 * n)))
    else if op =? 14 then some (bs "rPush") (counted load_nodes)
    else if op =? 9 then some (bs "hmSet") (lbind (load_string s) (fun v s1 => lift_opt (obind (zipmap_load v) (fun m => Some (flat_pairs (range m)))) s1))
    else if op =? 10 then some (bs "rPush") (lbind (load_string s) (fun v s1 => lift_opt (ziplist_load v) s1))
    else if op =? 11 then some (bs "sAdd") (lbind (load_string s) (fun v s1 => lift_opt (obind (intset_load v) (fun l => Some (map itoa l))) s1))
    else if op =? 12 then some (bs "zAdd") (lbind (load_string s) (fun v s1 => lift_opt (obind (ziplist_load v) (fun l => Some (even_part l))) s1))
    else if op =? 13 then some (bs "hmSet") (lbind (load_string s) (fun v s1 => lift_opt (ziplist_load v) s1))
    else if op =? 15 then lbind (load_len s) (fun _ s1 => LOk (None, true) s1)
    else if (op =? 6) || (op =? 7) then LOk (None, true) s
    else LOk (None, false) s.

  (** replication.go:545-549 ReplicationMessage without its Offset, which is always 0 *)
  Record rmsg := RMsg { rm_db : Z; rm_msg : msg }.
  (** the fields of Replication that Load writes, and its variable [expiresTime] *)
  Record lst := Lst { l_db : Z; l_id : gostr; l_off : Z; l_exp : Z }.
  Definition emit (st : lst) (args : list gostr) : rmsg := RMsg (l_db st) (convert_to_message args).

  (** One iteration of the loop :189-540: what is sent to [repl.Messages], the state afterwards,
      and whether the loop goes on ([None]: Load returns nil). Sending never fails; that it can block
      is the business of ReplModel. *)
  Definition load_item (st : lst) (op : Z) (s : rd) : lres (list rmsg * lst * bool) :=
    if op =? 253 then
      lbind (lift (read_full 4 s)) (fun d s1 => LOk ([], Lst (l_db st) (l_id st) (l_off st) (wrapu32 (le_val d * 1000)), true) s1)
    else if op =? 252 then
      lbind (lift (read_full 8 s)) (fun d s1 => LOk ([], Lst (l_db st) (l_id st) (l_off st) (le_val d), true) s1)
    else if op =? 249 then lbind (lift (read_byte s)) (fun _ s1 => LOk ([], st, true) s1)
    else if op =? 248 then lbind (load_len s) (fun _ s1 => LOk ([], st, true) s1)
    else if op =? 255 then LOk ([], st, false) s
    else if op =? 254 then
      lbind (load_len s) (fun '(i, _) s1 => LOk ([], Lst i (l_id st) (l_off st) (l_exp st), true) s1)
    else if op =? 251 then lbind (load_len s) (fun _ s1 => lbind (load_len s1) (fun _ s2 => LOk ([], st, true) s2))
    else if op =? 250 then
      lbind (load_string s) (fun k s1 =>
      lbind (load_string s1) (fun v s2 =>
      if gostr_eqb k (bs "repl-id") then LOk ([], Lst (l_db st) v (l_off st) (l_exp st), true) s2
      else if gostr_eqb k (bs "repl-offset") then
        match atoi v with Some n => LOk ([], Lst (l_db st) (l_id st) n (l_exp st), true) s2 | None => LErr end
      else LOk ([], st, true) s2))
    else if op =? 247 then
      lbind (load_len s) (fun _ s1 =>
      lbind (load_len s1) (fun '(w, _) s2 =>
      if negb (w =? 2) then LErr else
      lbind (load_len s2) (fun _ s3 =>
      lbind (load_len s3) (fun '(e, _) s4 =>
      if negb (e =? 0) then LErr else LOk ([], st, true) s4))))
    else
      lbind (load_string s) (fun key s1 =>
      if gostr_eqb key [] then LErr else
      lbind (load_value op key s1) (fun '(cmd, stop) s2 =>
      let ms := match cmd with Some args => [emit st args] | None => [] end in
      let exp := if l_exp st >? 0 then [emit st [bs "pExpire"; key; itoa (wrap64 (l_exp st))]] else [] in
      LOk (ms ++ exp, Lst (l_db st) (l_id st) (l_off st) 0, negb stop) s2)).

  (** how Load ends: it returns nil, returns an error, panics, or the process exits *)
  Inductive outcome := ONil | OErr | OPanic | OExit | OFuel.
  (** the loop :189-542: everything sent to [repl.Messages], how it ends, and the state then *)
  Fixpoint load_loop (fuel : nat) (st : lst) (s : rd) : list rmsg * outcome * lst :=
    match fuel with
    | O => ([], OFuel, st)
    | S f =>
      match lbind (load_opcode s) (fun op s1 => load_item st op s1) with
      | LOk (ms, st', true) s' => let '(r, o, e) := load_loop f st' s' in (ms ++ r, o, e)
      | LOk (ms, st', false) s' => (ms, ONil, st')
      | LErr => ([], OErr, st)
      | LPanic => ([], OPanic, st)
      | LExit => ([], OExit, st)
      | LFuel => ([], OFuel, st)
      end
    end.
  (** replication.go:171-543 Load on an open file that delivers the chunks [src]; opening the file is
      not modelled. The nine bytes of the version are read with one Read and not looked at (:182-185). *)
  Definition load (db : Z) (src : list gostr) : list rmsg * outcome * lst :=
    let st := Lst db [] 0 0 in
    match read_some 9 (new_rd src) with
    | ROk _ s => load_loop (S (length (bytes_left s))) st s
    | RErr _ _ => ([], OErr, st)
    | RPanic => ([], OPanic, st)
    | RFuel => ([], OFuel, st)
    end.
End load.
