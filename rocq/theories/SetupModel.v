(** * SetupModel: New when dialling, writing and opening files may fail (xxcache.go:31-61, redis/replication.go:44-74, :120-155, :171-179)

    ReplModel.v begins when the connection is made and the snapshot file is open, and takes writers that never fail.  Here
    everything New asks of the network and of the file system may fail; once SyncWithRedis has returned nil the goroutines are
    those of ReplModel.v.  Simplifications: a read that fails is a read at the end of the stream, also when Load reads the
    snapshot file; nobody else touches the file, which Load reads as SyncWithRedis left it; the finalizers of the Go runtime,
    which may close files that nothing refers to, are not modelled. *)
From stdpp Require Import gmap list.
From Verif Require Import Base GoFloat CacheModel RespModel RdbModel ReplModel ClientModel PoolModel RemoteModel FacadeModel WriterModel.

(** What the world does: the error of net.Dial, the chunks the master sends, what the writes to it do, the error of creating the
    snapshot file, what the writes to it do, and the error of opening it again. *)
Record env := Env {
  e_dial : option gostr; e_in : list gostr; e_wire : list (option (nat * gostr));
  e_create : option gostr; e_disk : list (option (nat * gostr)); e_open : option gostr }.

(** the errors New returns, by their cause *)
Inductive nfail :=
  | FNoFile | FNoAddr                   (* replication.go:46, :53 *)
  | FDial (e : gostr)                   (* :57 *)
  | FWrite (e : gostr) | FRead (e : rerr) | FPong (m : msg)   (* ping, :124-128 *)
  | FSync (e : gostr)                   (* :140 *)
  | FCreate (e : gostr)                 (* :145 *)
  | FSave (e : gostr) | FSaveRead (e : rerr).   (* :149 *)
(** what was opened: a connection, the file for writing, the file for reading *)
Inductive opened := HConn (addr : gostr) | HSave (file : gostr) | HLoad (file : gostr).
Inductive yres := YOk (net : rd) | YFail (f : nfail) | YCrash.

(** replication.go:134-155 sync: what was opened, the connection's writer, the contents of the file if it was opened, the result *)
Definition sync_env (file : gostr) (e : env) (b : bw) (s : rd) : list opened * bw * option gostr * yres :=
  let b1 := w_send (convert_to_message [bs "SYNC"]) b in
  match b_err b1 with
  | Some x => ([], b1, None, YFail (FSync x))                                  (* :139-141 *)
  | None =>
    match e_create e with
    | Some x => ([], b1, None, YFail (FCreate x))                              (* :144-146 *)
    | None =>
      let '(d, r) := w_save s (Dev [] (e_disk e)) in                           (* O_TRUNC: the file is empty before *)
      ([HSave file], b1, Some (concat (d_out d)),
       match r with
       | SvOk _ _ net => YOk net
       | SvRead x => YFail (FSaveRead x)
       | SvWrite x => YFail (FSave x)
       | SvCrash => YCrash
       end)
    end
  end.
(** replication.go:120-132 ping; [inl]: it succeeded and the rest of the stream is as given *)
Definition ping_env (b : bw) (s : rd) : bw * (rd + yres) :=
  let b1 := w_send (convert_to_message [bs "ping"]) b in
  match b_err b1 with
  | Some x => (b1, inr (YFail (FWrite x)))
  | None =>
    (b1, match recv s with
         | ROk m s1 => if gostr_eqb (msg_string m) (bs "PONG") then inl s1 else inr (YFail (FPong m))
         | RErr x _ => inr (YFail (FRead x))
         | RPanic | RFuel => inr YCrash
         end)
  end.
(** replication.go:44-74 SyncWithRedis: what was opened, the bytes the master was sent, the contents of the file, the result *)
Definition sync_with_env (addr file : gostr) (e : env) : list opened * gostr * option gostr * yres :=
  if bool_decide (file = []) then ([], [], None, YFail FNoFile)
  else if bool_decide (addr = []) then ([], [], None, YFail FNoAddr)
  else match e_dial e with
  | Some x => ([], [], None, YFail (FDial x))
  | None =>
    let '(b, r) := ping_env (new_bw (Dev [] (e_wire e))) (new_rd (e_in e)) in
    match r with
    | inr y => ([HConn addr], concat (d_out (b_dev b)), None, y)
    | inl s => let '(hs, b1, f, y) := sync_env file e b s in (HConn addr :: hs, concat (d_out (b_dev b1)), f, y)
    end
  end.

(** xxcache.go:31-52 New up to Load: [BRun s]: SyncWithRedis returned nil, the handler runs, and New calls Load.  When the file
    cannot be opened (replication.go:177-179) Load has sent nothing and returns an error. *)
Inductive booted := BFail (f : nfail) | BCrash | BRun (s : rs).
Definition load_closed (w : world) (net : rd) : rs := RS [] OErr NLoad WOff net AOff [] false false HLoop false w.
Definition new_env (range : gmap gostr gostr -> list (gostr * gostr)) (w : world) (o : xopt) (e : env) : list opened * gostr * option gostr * booted :=
  let p := prepare_option o in
  let '(hs, sent, f, y) := sync_with_env (x_addr p) (x_file p) e in
  match y with
  | YFail x => (hs, sent, f, BFail x)
  | YCrash => (hs, sent, f, BCrash)
  | YOk net =>
    match e_open e with
    | Some _ => (hs, sent, f, BRun (load_closed w net))
    | None => (hs ++ [HLoad (x_file p)], sent, f, BRun (started range w (default [] f) net))
    end
  end.
(** the goroutines New started: handleReplication, WaitForMessage, Ack (xxcache.go:48, :54, :56) *)
Inductive gor := GHandle | GWait | GAck.
Definition gors (b : booted) (s : rs) : list gor :=
  match b with
  | BRun _ => GHandle :: (match r_wait s with WOff | WDone => [] | _ => [GWait] end) ++ (match r_ack s with AOff => [] | _ => [GAck] end)
  | _ => []
  end.
