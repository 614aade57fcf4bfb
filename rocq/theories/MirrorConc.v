(** * MirrorConc: replication and readers of the cache, each operation on the cache a step of its own (xxcache.go:31-80, command.go:77-79)

    ReplModel and FacadeModel let HandleMessage and Get run in one step. Here they do not: the goroutine 0 of
    CacheConc is handleReplication, which is inside the call of Set that HandleMessage makes, and all other
    goroutines are those of the user, which call Get. The rest of the replication side is that of ReplModel, whose field
    [r_w] is not used. The user's Set, which goes to the Redis client and does not touch the cache (C129), is left out. *)
From stdpp Require Import gmap.
From Verif Require Import Base GoFloat CacheModel CacheSpec CacheConc RespModel RdbModel ReplModel FacadeModel.

Record mc := MC { mc_r : rs; mc_c : conf }.
Definition mc_new (range : gmap gostr gostr -> list (gostr * gostr)) (w : world) (file : gostr) (net : rd) : mc :=
  MC (started range w file net) (start w).

(** cache/message.go:19-21: the arguments of the call of Set, if HandleMessage makes one *)
Definition set_args (m : msg) : option (gostr * gostr) :=
  match m with
  | MArr (c :: k :: v :: _) => if gostr_eqb (go_lower (msg_string c)) (bs "set") then Some (msg_string k, msg_string v) else None
  | _ => None
  end.
(** [XRepl]: a step of New, WaitForMessage or Ack, or of handleReplication on the channel Err; [XMsg]: handleReplication
    receives a message, and handles it up to the call of Set; [XGet]: a goroutine of the user calls Get; [XRun], [XRet]: the next
    operation of a goroutine on the cache, and its return from the cache *)
Inductive xact := XRepl (a : ract) | XMsg | XGet (i : nat) (k : gostr) | XRun (i : nat) | XRet (i : nat) | XTick (t : Z).
Inductive xevent := XV (e : revent) | XC (e : event).

Definition on_repl (o : option (rs * list revent)) (x : mc) : option (mc * list xevent) :=
  match o with Some (s, e) => Some (MC s (mc_c x), map XV e) | None => None end.
Definition on_cache (o : option (conf * list event)) (x : mc) : option (mc * list xevent) :=
  match o with Some (c, e) => Some (MC (mc_r x) c, map XC e) | None => None end.
(** handleReplication is not inside HandleMessage *)
Definition idle (x : mc) : bool := match c_th (mc_c x) !! 0%nat with None => true | Some _ => false end.

Definition xstep (sel : Z) (a : xact) (x : mc) : option (mc * list xevent) :=
  let s := mc_r x in let c := mc_c x in
  if r_dead s then None else
  match a with
  | XRepl (AMsg _) => None
  | XRepl AErrs => if idle x then on_repl (rstep sel AErrs s) x else None
  | XRepl a => on_repl (rstep sel a s) x
  | XMsg =>                                                                                (* xxcache.go:65-73 *)
    if idle x then
      match r_h s, r_chan s with
      | HLoop, m :: r =>
        match (if rm_db m =? sel then set_args (rm_msg m) else None) with
        | Some (k, v) =>
          match cstep (AInv 0 (CSet k v)) c with
          | Some (c', e) => Some (MC (set_handler HLoop r (r_w s) s) c', XV (VTook m) :: map XC e)
          | None => None
          end
        | None => on_repl (handle sel 0 (rm_db m) (Some (rm_msg m)) r (VTook m) s) x        (* the cache is not used *)
        end
      | HLoop, [] => if r_closed s then on_repl (handle sel 0 0 None [] VZero s) x else None
      | HSend, _ => None
      end
    else None
  | XGet i k => if returned s then match i with O => None | S _ => on_cache (cstep (AInv i (CGet k)) c) x end else None
  | XRun i =>
    match c_th c !! i with
    | Some (Step f) => match f (c_w c) with Panic => on_repl (crash s) x | _ => on_cache (cstep (ARun i) c) x end
    | _ => None
    end
  | XRet i =>
    match cstep (ARet i) c with
    | Some (c', e) =>                                                                      (* message.go:42, xxcache.go:71-73 *)
      if match i, e with O, [ERet _ (RStr (_, None))] => false | O, _ => true | S _, _ => false end
      then Some (MC (set_handler HSend (r_chan s) (r_w s) s) c', map XC e ++ [XV VFail])
      else Some (MC s c', map XC e)
    | None => None
    end
  | XTick t => on_cache (cstep (ATick t) c) x
  end.
Fixpoint xexec (sel : Z) (l : list xact) (x : mc) : option (mc * list xevent) :=
  match l with
  | [] => Some (x, [])
  | a :: l => match xstep sel a x with
              | Some (x', e) => match xexec sel l x' with Some (x'', e') => Some (x'', e ++ e') | None => None end
              | None => None
              end
  end.
