(** * RespModel: bufio.Reader, RESP messages and connections (redis/protocol.go, redis/conn.go)

    The transport (net.Conn, or a file) is the list of byte chunks it will still deliver,
    one chunk per successful Read call, and then end of stream for ever. An empty chunk stands for
    nothing: neither a TCP connection nor a file returns from Read without data or an error. Errors other than end of stream are not
    modelled: they are treated by the code exactly as end of stream is. *)
From Verif Require Import Base.

(** ** Go library: bufio.Reader with its default buffer of 4096 bytes *)
Definition bufsize : nat := Z.to_nat 4096.

(** the unread bytes in the buffer; the chunks still to come *)
Record rd := Rd { r_buf : gostr; r_src : list gostr }.
Definition bytes_left (s : rd) : gostr := r_buf s ++ concat (r_src s).
(** bufio.NewReader *)
Definition new_rd (src : list gostr) : rd := Rd [] src.

(** One Read call of the transport with room for [n] bytes; [None] is io.EOF. *)
Fixpoint src_read (n : nat) (cs : list gostr) : option (gostr * list gostr) :=
  match cs with
  | [] => None
  | [] :: r => src_read n r
  | c :: r => Some (take n c, match drop n c with [] => r | d => d :: r end)
  end.

Definition CR : byte := z2b 13.
Definition LF : byte := z2b 10.

(** Index of the first '\n' (bytes.IndexByte). *)
Fixpoint lf_index (s : gostr) : option nat :=
  match s with
  | [] => None
  | b :: r => if Byte.eqb b LF then Some O else match lf_index r with Some i => Some (S i) | None => None end
  end.

Inductive slice_end := SFound | SEof | SFull.
(** Go library bufio.ReadSlice('\n'): line (with '\n' if found), how it ended, and the reader afterwards. *)
Fixpoint read_slice (buf : gostr) (cs : list gostr) : gostr * slice_end * rd :=
  match lf_index buf with
  | Some i => (take (S i) buf, SFound, Rd (drop (S i) buf) cs)
  | None =>
    if Nat.leb bufsize (length buf) then (buf, SFull, Rd [] cs)
    else match cs with
         | [] => (buf, SEof, Rd [] [])
         | c :: r =>
           let n := (bufsize - length buf)%nat in
           let buf' := buf ++ take n c in
           match drop n c with
           | [] => read_slice buf' r
           | d => match lf_index buf' with
                  | Some i => (take (S i) buf', SFound, Rd (drop (S i) buf') (d :: r))
                  | None => (buf', SFull, Rd [] (d :: r))
                  end
           end
         end
  end.

(** Results of reading: a value, an error, or a panic; [RFuel] is an artefact of the bounded
    recursion in [read_msg] and is proved impossible (C61). *)
Inductive rerr := EEof | EProto (b : byte) | ENum (line : gostr).
Inductive res (A : Type) := ROk (a : A) (s : rd) | RErr (e : rerr) (s : rd) | RPanic | RFuel.
Arguments ROk {A}. Arguments RErr {A}. Arguments RPanic {A}. Arguments RFuel {A}.

Definition ends_with (b : byte) (s : gostr) : bool := match rev s with x :: _ => Byte.eqb x b | [] => false end.

(** Go library bufio.ReadLine; the isPrefix result is ignored by every caller in /repo. *)
Definition read_line (s : rd) : res gostr :=
  match read_slice (r_buf s) (r_src s) with
  | (line, SFull, s') =>
    if ends_with CR line then ROk (removelast line) (Rd (CR :: r_buf s') (r_src s')) else ROk line s'
  | ([], _, s') => RErr EEof s'
  | (line, _, s') =>
    if ends_with LF line then
      let l := removelast line in ROk (if ends_with CR l then removelast l else l) s'
    else ROk line s'
  end.

(** Go library bufio.ReadByte *)
Definition read_byte (s : rd) : res byte :=
  match r_buf s with
  | b :: r => ROk b (Rd r (r_src s))
  | [] => match src_read bufsize (r_src s) with
          | Some (b :: r, cs) => ROk b (Rd r cs)
          | _ => RErr EEof (Rd [] [])
          end
  end.

(** Go library bufio.Read(p) with len(p) = n: the bytes copied to the front of p (one Read call at most). *)
Definition read_some (n : nat) (s : rd) : res gostr :=
  match n with
  | O => ROk [] s
  | _ =>
    match r_buf s with
    | [] =>
      if Nat.leb bufsize n then
        match src_read n (r_src s) with
        | Some (d, cs) => ROk d (Rd [] cs)
        | None => RErr EEof (Rd [] [])
        end
      else
        match src_read bufsize (r_src s) with
        | Some (d, cs) => ROk (take n d) (Rd (drop n d) cs)
        | None => RErr EEof (Rd [] [])
        end
    | buf => ROk (take n buf) (Rd (drop n buf) (r_src s))
    end
  end.

(** Go: [data := make([]byte, n)] followed by copying [d] to its front. *)
Definition padded (n : nat) (d : gostr) : gostr := d ++ replicate (n - length d) x00.
(** [make] panics above the limit of Base.v and for negative lengths. *)
Definition make_ok (n : Z) : bool := (0 <=? n) && (n <=? max_alloc).

(** ** redis/protocol.go *)
(** protocol.go:25-29,42,58,87,116,129,142: the six implementations of Message *)
Inductive msg := MNil | MBulk (s : gostr) | MSimple (s : gostr) | MError (s : gostr) | MInt (z : Z) | MArr (l : list msg).

(** Go library strings.Join *)
Fixpoint join (sep : gostr) (l : list gostr) : gostr :=
  match l with [] => [] | [x] => x | x :: r => x ++ sep ++ join sep r end.
(** protocol.go: String methods (:45,60,91,118,131,144) *)
Fixpoint msg_string (m : msg) : gostr :=
  match m with
  | MNil => bs "Nil"
  | MBulk s | MSimple s | MError s => s
  | MInt z => itoa z
  | MArr l => join (bs " ") (map msg_string l)
  end.
(** protocol.go: MessageEOF (:84) *)
Definition eof : gostr := [CR; LF].
(** protocol.go: Serialize methods (:49,70,95,121,135,148) *)
Fixpoint serialize (m : msg) : gostr :=
  match m with
  | MNil => bs "$-1" ++ eof
  | MBulk s => bs "$" ++ (itoa (zlen s) ++ eof) ++ (s ++ eof)
  | MSimple s => bs "+" ++ s ++ eof
  | MError s => bs "-" ++ s ++ eof
  | MInt z => bs ":" ++ itoa z ++ eof
  | MArr l => (bs "*" ++ itoa (zlen l) ++ eof) ++ concat (map serialize l)
  end.

(** redis.go:9-15 ConvertToMessage *)
Definition convert_to_message (args : list gostr) : msg := MArr (map MBulk args).

(** ** redis/conn.go *)
Definition rbind {A B} (x : res A) (k : A -> rd -> res B) : res B :=
  match x with ROk a s => k a s | RErr e s => RErr e s | RPanic => RPanic | RFuel => RFuel end.
(** A decimal header line (conn.go:185-193, 227-233, 237-244): ReadLine, then Atoi. *)
Definition read_num (s : rd) : res Z :=
  rbind (read_line s) (fun l s' => match atoi l with Some n => ROk n s' | None => RErr (ENum l) s' end).
(** conn.go:200-207: make, one Read, then discardEof (:98-102) *)
Definition read_bulk (n : Z) (s : rd) : res msg :=
  if make_ok n then
    rbind (read_some (Z.to_nat n) s) (fun d s1 =>
    rbind (read_line s1) (fun _ s2 => ROk (MBulk (padded (Z.to_nat n) d)) s2))
  else RPanic.

(** conn.go:176-259 readMessage; [read_n k] is the loop :247-253 with [k] iterations left.
    The recursion is bounded by [fuel]. *)
Fixpoint read_msg (fuel : nat) (s : rd) : res msg :=
  match fuel with
  | O => RFuel
  | S f =>
    rbind (read_byte s) (fun p s1 =>
    if Byte.eqb p (z2b 36) then                                   (* '$' *)
      rbind (read_num s1) (fun n s2 => if n =? -1 then ROk MNil s2 else read_bulk n s2)
    else if Byte.eqb p (z2b 43) then                              (* '+' *)
      rbind (read_line s1) (fun l s2 => ROk (MSimple l) s2)
    else if Byte.eqb p (z2b 45) then                              (* '-' *)
      rbind (read_line s1) (fun l s2 => ROk (MError l) s2)
    else if Byte.eqb p (z2b 58) then                              (* ':' *)
      rbind (read_num s1) (fun n s2 => ROk (MInt n) s2)
    else if Byte.eqb p (z2b 42) then                              (* '*' *)
      rbind (read_num s1) (fun n s2 => rbind (read_n f n s2) (fun l s3 => ROk (MArr l) s3))
    else RErr (EProto p) s1)
  end
with read_n (fuel : nat) (k : Z) (s : rd) : res (list msg) :=
  match fuel with
  | O => RFuel
  | S f =>
    if k <=? 0 then ROk [] s
    else rbind (read_msg f s) (fun m s1 => rbind (read_n f (k - 1) s1) (fun l s2 => ROk (m :: l) s2))
  end.

(** conn.go:35-37 Recv *)
Definition recv (s : rd) : res msg := read_msg (S (length (bytes_left s))) s.

(** Receiving [n] times (the callers of Recv, one after the other). *)
Fixpoint recv_n (n : nat) (s : rd) : res (list msg) :=
  match n with
  | O => ROk [] s
  | S k => rbind (recv s) (fun m s1 => rbind (recv_n k s1) (fun l s2 => ROk (m :: l) s2))
  end.

(** conn.go:39-47 Send: the bytes written (errors of the writer are not modelled) *)
Definition send (m : msg) : gostr := serialize m.

(** conn.go:130-138: [n] times ReadByte, appending to the writer *)
Fixpoint copy_bytes (n : nat) (acc : gostr) (s : rd) : gostr * res unit :=
  match n with
  | O => (acc, ROk tt s)
  | S k => match read_byte s with
           | ROk b s' => copy_bytes k (acc ++ [b]) s'
           | RErr e s' => (acc, RErr e s')
           | RPanic => (acc, RPanic)
           | RFuel => (acc, RFuel)
           end
  end.
(** conn.go:105-174 ReadWithWriter: everything written to the writer, and (protocol, count) *)
Definition read_with_writer (s : rd) : gostr * res (byte * Z) :=
  match read_byte s with
  | ROk p s1 =>
    if Byte.eqb p (z2b 36) then
      match read_num s1 with
      | ROk n s2 => match copy_bytes (Z.to_nat n) [] s2 with
                    | (out, ROk _ s3) => (out, ROk (p, n) s3)
                    | (out, RErr e s3) => (out, RErr e s3)
                    | (out, RPanic) => (out, RPanic)
                    | (out, RFuel) => (out, RFuel)
                    end
      | RErr e s2 => ([], RErr e s2)
      | RPanic => ([], RPanic)
      | RFuel => ([], RFuel)
      end
    else if Byte.eqb p (z2b 43) || Byte.eqb p (z2b 45) || Byte.eqb p (z2b 58) then
      match read_line s1 with
      | ROk l s2 => (l, ROk (p, zlen l) s2)
      | RErr e s2 => ([], RErr e s2)
      | RPanic => ([], RPanic)
      | RFuel => ([], RFuel)
      end
    else if Byte.eqb p (z2b 42) then
      match read_num s1 with
      | ROk n s2 => ([], ROk (p, n) s2)
      | RErr e s2 => ([], RErr e s2)
      | RPanic => ([], RPanic)
      | RFuel => ([], RFuel)
      end
    else ([], RErr (EProto p) s1)
  | RErr e s1 => ([], RErr e s1)
  | RPanic => ([], RPanic)
  | RFuel => ([], RFuel)
  end.
