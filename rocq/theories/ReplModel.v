(** * ReplModel: the replication client (redis/replication.go:44-155, cache/message.go, xxcache.go:31-80)

    The goroutines of a client made by New, as a transition system: New itself while it loads the
    snapshot, handleReplication, WaitForMessage and Ack. The two channels are FIFO queues.
    Simplifications: dialling the master and opening the snapshot file always succeed; writing an ack either
    succeeds, which has no effect here, or fails; handleReplication is the only one that uses the cache, so that
    a call of HandleMessage is one step (for the cache under other callers see CacheConc.v). *)
From stdpp Require Import gmap.
From Verif Require Import Base GoFloat CacheModel RespModel RdbModel.

(** Go library strings.ToLower, as far as comparisons with lower-case ASCII texts can tell: ASCII letters are
    mapped, and U+0130 (bytes C4 B0), whose lower case is an ASCII 'i'; no other character becomes one
    of the letters of "set", "rpush", "hmset" or "ping". *)
Fixpoint go_lower (s : gostr) : gostr :=
  match s with
  | xc4 :: ((xb0 :: r) as t) => x69 :: go_lower r
  | b :: r => to_lower [b] ++ go_lower r
  | [] => []
  end.
(** Go library strings.HasPrefix *)
Fixpoint has_prefix (s p : gostr) : bool :=
  match p, s with
  | [], _ => true
  | a :: p', b :: s' => Byte.eqb a b && has_prefix s' p'
  | _ :: _, [] => false
  end.

(** ** cache/message.go:9-43 HandleMessage
    [None] is the nil message of a closed channel, for which the type assertion :10 fails as it does for
    everything but an array. cachelist.go:24-26: RPush panics. *)
Inductive hres := HOk (w : world) | HErr (w : world) | HPanic | HBlocked.
Definition handle_message (t : Z) (m : option msg) (w : world) : hres :=
  match m with
  | Some (MArr l) =>
    match l with
    | [] => HErr w
    | c :: args =>
      let name := go_lower (msg_string c) in
      if gostr_eqb name (bs "set") then
        match args with
        | k :: v :: _ =>
          match run_call t (CSet (msg_string k) (msg_string v)) w with
          | Done w' (RStr (_, None)) => HOk w'
          | Done w' _ => HErr w'
          | EBlocked => HBlocked
          | EPanic => HPanic
          end
        | _ => HPanic                                     (* :21 index out of range *)
        end
      else if gostr_eqb name (bs "rpush") then (match args with [] => HErr w | _ => HPanic end)
      else if gostr_eqb name (bs "hmset") then (match args with [] => HErr w | _ => HOk w end)
      else HErr w
    end
  | _ => HErr w
  end.

(** replication.go:85: the messages WaitForMessage drops *)
Definition skipped (m : msg) : bool := has_prefix (go_lower (msg_string m)) (bs "ping").
(** replication.go:39 *)
Definition max_messages : Z := 10000.

(** ** the goroutines *)
Inductive nphase := NLoad | NRet (ok : bool).                                  (* xxcache.go:51-60 *)
Inductive wphase := WOff | WRecv | WSend (m : msg) | WErr | WClose | WDone.    (* replication.go:77-95 *)
Inductive aphase := AOff | AIdle | ASend.                                      (* replication.go:112-118 *)
Inductive hphase := HLoop | HSend.                                             (* xxcache.go:64-79: at :65, at :72 *)
(** [r_todo], [r_out]: what Load still has to send, and how it will end. [r_err]: whether the channel Err, of
    capacity 1, holds an error. [r_dead]: the process has ended. *)
Record rs := RS {
  r_todo : list rmsg; r_out : outcome; r_new : nphase; r_wait : wphase; r_net : rd; r_ack : aphase;
  r_chan : list rmsg; r_closed : bool; r_err : bool; r_h : hphase; r_dead : bool; r_w : world }.
(** xxcache.go:48: the state when SyncWithRedis has saved the snapshot [file] and the rest of the stream is
    [net]; New sets neither option.database nor repl.database, which are [sel] and 0. *)
Definition started (range : gmap gostr gostr -> list (gostr * gostr)) (w : world) (file : gostr) (net : rd) : rs :=
  let '(ms, o, _) := load range 0 [file] in RS ms o NLoad WOff net AOff [] false false HLoop false w.

(** [ANew]: New's next send, or its end; [AMsg t], [AErrs]: the two cases of the select at time [t]; [AHand]: the
    send :72; [AWait]: WaitForMessage's next step; [AAckFail]: an ack fails; [AAck]: Ack's send *)
Inductive ract := ANew | AMsg (t : Z) | AErrs | AHand | AWait | AAckFail | AAck.
(** [VTook m]: the handler received [m] and was not ended by it; [VZero]: it received a nil message from the
    closed channel; [VFail]: HandleMessage returned an error; [VWarn]: an error was logged (:75-77) *)
Inductive revent := VTook (m : rmsg) | VZero | VFail | VWarn | VNew (ok : bool) | VCrash.

Definition set_handler (h : hphase) (c : list rmsg) (w : world) (s : rs) : rs :=
  RS (r_todo s) (r_out s) (r_new s) (r_wait s) (r_net s) (r_ack s) c (r_closed s) (r_err s) h (r_dead s) w.
Definition set_err (e : bool) (h : hphase) (s : rs) : rs :=
  RS (r_todo s) (r_out s) (r_new s) (r_wait s) (r_net s) (r_ack s) (r_chan s) (r_closed s) e h (r_dead s) (r_w s).
Definition set_wait (x : wphase) (net : rd) (c : list rmsg) (cl e : bool) (s : rs) : rs :=
  RS (r_todo s) (r_out s) (r_new s) x net (r_ack s) c cl e (r_h s) (r_dead s) (r_w s).
Definition set_ack (a : aphase) (e : bool) (s : rs) : rs :=
  RS (r_todo s) (r_out s) (r_new s) (r_wait s) (r_net s) a (r_chan s) (r_closed s) e (r_h s) (r_dead s) (r_w s).
Definition set_new (todo : list rmsg) (n : nphase) (x : wphase) (a : aphase) (c : list rmsg) (s : rs) : rs :=
  RS todo (r_out s) n x (r_net s) a c (r_closed s) (r_err s) (r_h s) (r_dead s) (r_w s).
Definition crash (s : rs) : option (rs * list revent) :=
  Some (RS (r_todo s) (r_out s) (r_new s) (r_wait s) (r_net s) (r_ack s) (r_chan s) (r_closed s) (r_err s) (r_h s) true (r_w s), [VCrash]).
Definition room (s : rs) : bool := zlen (r_chan s) <? max_messages.

(** xxcache.go:67-73: one received message; [c] is the queue afterwards *)
Definition handle (sel t db : Z) (m : option msg) (c : list rmsg) (ev : revent) (s : rs) : option (rs * list revent) :=
  if negb (db =? sel) then Some (set_handler HLoop c (r_w s) s, [ev])
  else match handle_message t m (r_w s) with
       | HOk w => Some (set_handler HLoop c w s, [ev])
       | HErr w => Some (set_handler HSend c w s, [ev; VFail])
       | HPanic => crash s
       | HBlocked => None
       end.

Definition rstep (sel : Z) (a : ract) (s : rs) : option (rs * list revent) :=
  if r_dead s then None else
  match a with
  | ANew =>
    match r_new s, r_todo s with
    | NLoad, m :: r => if room s then Some (set_new r NLoad (r_wait s) (r_ack s) (r_chan s ++ [m]) s, []) else None
    | NLoad, [] =>
      match r_out s with
      | ONil => Some (set_new [] (NRet true) WRecv AIdle (r_chan s) s, [VNew true])         (* :55-57 *)
      | OErr => Some (set_new [] (NRet false) (r_wait s) (r_ack s) (r_chan s) s, [VNew false])  (* :51-53 *)
      | OPanic | OExit => crash s
      | OFuel => None
      end
    | NRet _, _ => None
    end
  | AMsg t =>
    match r_h s, r_chan s with
    | HLoop, m :: r => handle sel t (rm_db m) (Some (rm_msg m)) r (VTook m) s
    | HLoop, [] => if r_closed s then handle sel t 0 None [] VZero s else None
    | HSend, _ => None
    end
  | AErrs => match r_h s with HLoop => if r_err s then Some (set_err false HLoop s, [VWarn]) else None | HSend => None end
  | AHand => match r_h s with HSend => if r_err s then None else Some (set_err true HLoop s, []) | HLoop => None end
  | AWait =>
    match r_wait s with
    | WRecv =>
      match recv (r_net s) with
      | ROk m n => Some (set_wait (if skipped m then WRecv else WSend m) n (r_chan s) (r_closed s) (r_err s) s, [])
      | RErr _ _ => Some (set_wait WErr (r_net s) (r_chan s) (r_closed s) (r_err s) s, [])
      | RPanic => crash s
      | RFuel => None
      end
    | WSend m => if room s then Some (set_wait WRecv (r_net s) (r_chan s ++ [RMsg 0 m]) (r_closed s) (r_err s) s, []) else None   (* :91 Database: 0 *)
    | WErr => if r_err s then None else Some (set_wait WClose (r_net s) (r_chan s) (r_closed s) true s, [])
    | WClose => Some (set_wait WDone (r_net s) (r_chan s) true (r_err s) s, [])
    | WOff | WDone => None
    end
  | AAckFail => match r_ack s with AIdle => Some (set_ack ASend (r_err s) s, []) | _ => None end
  | AAck => match r_ack s with ASend => if r_err s then None else Some (set_ack AIdle true s, []) | _ => None end
  end.
Fixpoint rexec (sel : Z) (l : list ract) (s : rs) : option (rs * list revent) :=
  match l with
  | [] => Some (s, [])
  | a :: r => match rstep sel a s with
              | Some (s', e) => match rexec sel r s' with Some (s'', e') => Some (s'', e ++ e') | None => None end
              | None => None
              end
  end.

(** ** replication.go:44-74, 120-155: SyncWithRedis after the connection is made: the bytes sent, what was
    written to the snapshot file (if it was opened), and how it ends *)
Inductive sres := SOk (net : rd) | SErr | SPanic.
Definition sync_with_redis (s : rd) : gostr * option gostr * sres :=
  let out := send (convert_to_message [bs "ping"]) in
  match recv s with
  | ROk m s1 =>
    if gostr_eqb (msg_string m) (bs "PONG") then
      let out := out ++ send (convert_to_message [bs "SYNC"]) in
      match read_with_writer s1 with
      | (file, ROk _ s2) => (out, Some file, SOk s2)
      | (file, RErr _ _) => (out, Some file, SErr)
      | (file, _) => (out, Some file, SPanic)
      end
    else (out, None, SErr)
  | RErr _ _ => (out, None, SErr)
  | RPanic | RFuel => (out, None, SPanic)
  end.
