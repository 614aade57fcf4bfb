(** * FacadeModel: the client made by New (xxcache.go:15-94, command.go:77-83)

    The replication goroutines of ReplModel together with the goroutines of the user, which call Get on the
    cache and Set on the Redis client of RemoteModel. Simplification: a Get is one step (for the cache
    under concurrent callers see CacheConc.v). LogLevel is not modelled. *)
From stdpp Require Import gmap.
From Verif Require Import Base GoFloat CacheModel RespModel RdbModel ReplModel ClientModel PoolModel RemoteModel.

(** xxcache.go:15-20 *)
Record xopt := XOpt { x_addr : gostr; x_file : gostr; x_database : Z }.
(** xxcache.go:82-90 prepareOption *)
Definition prepare_option (o : xopt) : xopt :=
  XOpt (if bool_decide (x_addr o = []) then bs "127.0.0.1:6379" else x_addr o)
       (if bool_decide (x_file o = []) then bs "temp.rdb" else x_file o) (x_database o).
(** xxcache.go:31-43, :58: the address SyncWithRedis dials, the snapshot file, the address of the Redis client, and
    the database handleReplication selects, which is that of the option before prepareOption *)
Definition addresses (o : xopt) : gostr * gostr * gostr * Z :=
  let p := prepare_option o in (x_addr p, x_file p, x_addr p, x_database o).

(** [f_redis]: client.redis, nil until New ends without error *)
Record facade := Fa { f_repl : rs; f_redis : option remote }.
(** xxcache.go:58: only Addr is set *)
Definition redis_client : remote := new_client (ROpt 0 0 []).
(** xxcache.go:31-49 with the cache [w] and the stream [cs] of the master: if SyncWithRedis fails, New has returned
    its error and no goroutine runs; [None]: it panics *)
Definition f_new (range : gmap gostr gostr -> list (gostr * gostr)) (w : world) (cs : list gostr) : option facade :=
  match sync_with_redis (new_rd cs) with
  | (_, Some file, SOk net) => Some (Fa (started range w file net) None)
  | (_, _, SErr) => Some (Fa (RS [] OErr (NRet false) WOff (new_rd []) AOff [] false false HLoop false w) None)
  | _ => None
  end.

(** [FRemote]: a step of a Set that goes on; [FSet i]: the goroutine [i] calls Set *)
Inductive fact := FRepl (a : ract) | FRemote (a : mact) | FGet (t : Z) (k : gostr) | FSet (i : nat) (k v : gostr) | FStop.
Inductive fevent := FV (e : revent) | FM (e : mevent) | FGot (k : gostr) (r : gret gostr) | FCrash.

Definition f_dead (f : facade) : bool := r_dead (f_repl f) || match f_redis f with Some m => m_dead m | None => false end.
Definition returned (s : rs) : bool := match r_new s with NLoad => false | NRet _ => true end.
Definition set_world (w : world) (s : rs) : rs :=
  RS (r_todo s) (r_out s) (r_new s) (r_wait s) (r_net s) (r_ack s) (r_chan s) (r_closed s) (r_err s) (r_h s) (r_dead s) w.
Definition f_crash (f : facade) : option (facade * list fevent) :=
  match crash (f_repl f) with Some (s, _) => Some (Fa s (f_redis f), [FCrash]) | None => None end.
Definition on_redis (a : mact) (f : facade) : option (facade * list fevent) :=
  match f_redis f with
  | Some m => match mstep a m with Some (m', e) => Some (Fa (f_repl f) (Some m'), map FM e) | None => None end
  | None => None
  end.
(** a call of Get or Set needs the client New has returned *)
Definition fstep (sel : Z) (a : fact) (f : facade) : option (facade * list fevent) :=
  if f_dead f then None else
  match a with
  | FRepl a =>
    match rstep sel a (f_repl f) with
    | Some (s, e) => Some (Fa s (match e with [VNew true] => Some redis_client | _ => f_redis f end), map FV e)     (* :58 *)
    | None => None
    end
  | FRemote (MCall _ _) => None
  | FRemote a => on_redis a f
  | FGet t k =>                                                                            (* command.go:77-79 *)
    if returned (f_repl f) then
      match run_call t (CGet k) (r_w (f_repl f)) with
      | Done w (RStr r) => Some (Fa (set_world w (f_repl f)) (f_redis f), [FGot k r])
      | Done _ _ | EBlocked => None
      | EPanic => f_crash f
      end
    else None
  | FSet i k v =>                                                                          (* command.go:81-83 *)
    if returned (f_repl f) then
      match f_redis f with
      | Some _ => on_redis (MCall i (QSet k v)) f
      | None => f_crash f                                                                  (* nil pointer *)
      end
    else None
  | FStop => if returned (f_repl f) then Some (f, []) else None                            (* xxcache.go:92-94 *)
  end.
Fixpoint fexec (sel : Z) (l : list fact) (f : facade) : option (facade * list fevent) :=
  match l with
  | [] => Some (f, [])
  | a :: l => match fstep sel a f with
              | Some (f', e) => match fexec sel l f' with Some (f'', e') => Some (f'', e ++ e') | None => None end
              | None => None
              end
  end.
