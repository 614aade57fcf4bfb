From stdpp Require Import gmap list.
From Verif Require Import Base GoFloat RespModel ClientModel PoolModel.

(** * WriterModel: writing when the transport may fail (redis/conn.go:39-70, :83-96, :105-174)

    RespModel.v, ClientModel.v and ReplModel.v take writers that never fail.  Here the transport below a bufio.Writer (a TCP
    connection, or the snapshot file) may fail at any Write call, after having taken any part of what it was given. *)

(** ** The transport

    What it took, call by call, and what the calls to come do: [None] takes everything, [Some (n, e)] takes at most [n] bytes and
    returns the error [e] (an error is its text); after the end of the list every call takes everything.  io.Writer must return an error
    when it takes less than everything. *)
Record dev := Dev { d_out : list gostr; d_plan : list (option (nat * gostr)) }.
(** the number of bytes taken, and the error *)
Definition dev_write (p : gostr) (d : dev) : nat * option gostr * dev :=
  match d_plan d with
  | Some (n, e) :: r => (Nat.min n (length p), Some e, Dev (d_out d ++ [take n p]) r)
  | None :: r => (length p, None, Dev (d_out d ++ [p]) r)
  | [] => (length p, None, Dev (d_out d ++ [p]) [])
  end.

(** ** Go library: bufio.Writer with its default buffer of 4096 bytes

    The bytes buffered, the error once one occurred, the transport. *)
Record bw := Bw { b_buf : gostr; b_err : option gostr; b_dev : dev }.
(** bufio.NewWriter *)
Definition new_bw (d : dev) : bw := Bw [] None d.
Definition available (b : bw) : nat := (bufsize - length (b_buf b))%nat.
(** Flush; the error returned is [b_err] afterwards *)
Definition bw_flush (b : bw) : bw :=
  match b_err b with
  | Some _ => b
  | None =>
    match b_buf b with
    | [] => b
    | p => let '(n, e, d) := dev_write p (b_dev b) in
           match e with Some _ => Bw (drop n p) e d | None => Bw [] None d end
    end
  end.
(** Write: the loop runs while [p] is longer than what is available and there is no error.  With an empty buffer [p] goes to the
    transport directly, which ends the loop; otherwise the buffer is filled up and flushed, after which it is empty or there is an error. *)
Definition bw_direct (p : gostr) (b : bw) : bw :=
  let '(_, e, d) := dev_write p (b_dev b) in Bw [] e d.
Definition bw_write (p : gostr) (b : bw) : bw :=
  match b_err b with
  | Some _ => b
  | None =>
    if Nat.leb (length p) (available b) then Bw (b_buf b ++ p) None (b_dev b)
    else match b_buf b with
         | [] => bw_direct p b
         | buf =>
           let n := available b in
           let b1 := bw_flush (Bw (buf ++ take n p) None (b_dev b)) in
           let q := drop n p in
           match b_err b1 with
           | Some _ => b1
           | None => if Nat.leb (length q) bufsize then Bw q None (b_dev b1) else bw_direct q b1
           end
         end
  end.
(** WriteByte *)
Definition bw_byte (c : byte) (b : bw) : bw :=
  match b_err b with
  | Some _ => b
  | None =>
    let b1 := if Nat.eqb (available b) 0 then bw_flush b else b in
    match b_err b1 with Some _ => b1 | None => Bw (b_buf b1 ++ [c]) None (b_dev b1) end
  end.

(** ** redis/conn.go *)
(** :39-47 Send; the error returned is [b_err] afterwards *)
Definition w_send (m : msg) (b : bw) : bw :=
  let b1 := bw_write (serialize m) b in
  match b_err b1 with Some _ => b1 | None => bw_flush b1 end.
(** several, one after the other: the errors *)
Fixpoint w_sends (ms : list msg) (b : bw) : list (option gostr) * bw :=
  match ms with
  | [] => ([], b)
  | m :: r => let b1 := w_send m b in let '(l, b2) := w_sends r b1 in (b_err b1 :: l, b2)
  end.

(** :14-21 the fields of Conn that are used *)
Record wconn := WConn { wc_w : bw; wc_in : rd }.
(** :49-70 SendAndWaitReply and ExecCommand, as [exec] in ClientModel.v *)
Definition w_exec (q : rcall) (c : wconn) : option (cval * option cerr * wconn) :=
  let b := w_send (convert_to_message (request q)) (wc_w c) in
  match b_err b with
  | Some e => Some (zero_val (kind_of q), Some (XText e), WConn b (wc_in c))          (* :58-59 *)
  | None =>
    match recv (wc_in c) with
    | ROk m s => let '(v, e) := decode (kind_of q) m in Some (v, e, WConn b s)
    | RErr e s => Some (zero_val (kind_of q), Some (XRecv e), WConn b s)
    | RPanic | RFuel => None
    end
  end.
Fixpoint w_exec_all (qs : list rcall) (c : wconn) : option (list (cval * option cerr) * wconn) :=
  match qs with
  | [] => Some ([], c)
  | q :: r => match w_exec q c with
              | Some (v, e, c') => match w_exec_all r c' with Some (l, c'') => Some ((v, e) :: l, c'') | None => None end
              | None => None
              end
  end.

(** :83-96 readBulkString, which nothing calls: what was read (errors are ignored), or a panic of make *)
Definition read_bulk_string (n : Z) (s : rd) : option (gostr * rd) :=
  if 0 <? n then
    if make_ok n then
      let '(d, s1) := match read_some (Z.to_nat n) s with ROk d s1 => (d, s1) | RErr _ s1 => ([], s1) | _ => ([], s) end in
      Some (padded (Z.to_nat n) d, match read_line s1 with ROk _ s2 => s2 | RErr _ s2 => s2 | _ => s1 end)
    else None
  else Some ([], s).

(** :105-174 ReadWithWriter.  [SvWrite]: an error of the writer *)
Inductive saved := SvOk (p : byte) (n : Z) (s : rd) | SvRead (e : rerr) | SvWrite (e : gostr) | SvCrash.
(** :130-138 *)
Fixpoint w_copy (n : nat) (b : bw) (s : rd) : bw * saved :=
  match n with
  | O => (b, SvOk x00 0 s)
  | S k =>
    match read_byte s with
    | ROk c s' => let b1 := bw_byte c b in match b_err b1 with Some e => (b1, SvWrite e) | None => w_copy k b1 s' end
    | RErr e _ => (b, SvRead e)
    | RPanic | RFuel => (b, SvCrash)
    end
  end.
Definition w_save (s : rd) (d : dev) : dev * saved :=
  match read_byte s with
  | ROk p s1 =>
    let b := new_bw d in
    let '(b1, r) :=
      if Byte.eqb p (z2b 36) then
        match read_num s1 with
        | ROk n s2 => match w_copy (Z.to_nat n) b s2 with
                      | (b1, SvOk _ _ s3) => (b1, SvOk p n s3)
                      | x => x
                      end
        | RErr e _ => (b, SvRead e)
        | _ => (b, SvCrash)
        end
      else if Byte.eqb p (z2b 43) || Byte.eqb p (z2b 45) || Byte.eqb p (z2b 58) then
        match read_line s1 with
        | ROk l s2 => let b1 := bw_write l b in (b1, match b_err b1 with Some e => SvWrite e | None => SvOk p (zlen l) s2 end)
        | RErr e _ => (b, SvRead e)
        | _ => (b, SvCrash)
        end
      else if Byte.eqb p (z2b 42) then
        match read_num s1 with
        | ROk n s2 => (b, SvOk p n s2)
        | RErr e _ => (b, SvRead e)
        | _ => (b, SvCrash)
        end
      else (b, SvRead (EProto p)) in
    (b_dev (bw_flush b1), r)                                     (* :113-115: the error of the deferred Flush is dropped *)
  | RErr e _ => (d, SvRead e)
  | _ => (d, SvCrash)
  end.
