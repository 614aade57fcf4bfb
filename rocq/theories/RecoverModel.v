(** * RecoverModel: calls whose panic is recovered by the caller

    A panic in a method of the cache unwinds it: the functions deferred by the method run, then the caller's
    own deferred functions, one of which may call recover().  The world in which the panic happened is
    therefore kept here, and the deferred unlock is performed on it.  The panic of the sweep (cachecron.go) is
    in a goroutine of the library itself, where nobody can recover it. *)
From Verif Require Import Base GoFloat CacheModel CacheSpec CacheConc.

(** a run that keeps the world in which it panicked *)
Inductive pres (R : Type) := PDone (w : world) (r : R) | PBlocked | PPanic (w : world).
Arguments PDone {R} w r. Arguments PBlocked {R}. Arguments PPanic {R} w.
Fixpoint evalp {R} (p : prog R) (w : world) : pres R :=
  match p with
  | Ret r => PDone w r
  | Step f => match f w with
              | Go w' p' => evalp p' w'
              | Blocked => PBlocked
              | Panic => PPanic w
              end
  end.

(** The functions deferred by each method: cachestring.go:10 Set, :31 SetNX, :43 SetEX, :53 PSetEX, :102 GetSet,
    :133 Append, :153 SetRange, :236 IncrBy (Incr calls it), :276 IncrByFloat, :299 Decr, :306 DecrBy,
    cachedb.go:5 Del, :19 Flush defer Unlock; cachestring.go:90 Get, :117 StrLen, :197 GetRange defer RUnlock;
    the others defer nothing (cachestring.go:314, :325, :340 are comments). *)
Inductive dfr := DNone | DUnlock | DRUnlock.
Definition deferred (c : call) : dfr :=
  match c with
  | CSet _ _ | CSetNX _ _ | CSetEX _ _ _ | CPSetEX _ _ _ | CGetSet _ _ | CAppend _ _ | CSetRange _ _ _
  | CIncr _ | CIncrBy _ _ | CIncrByFloat _ _ | CDecr _ | CDecrBy _ _ | CDel _ | CFlush => DUnlock
  | CGet _ | CStrLen _ | CGetRange _ _ _ => DRUnlock
  | _ => DNone
  end.
(** The world after the deferred functions ran; [None]: the panic cannot be recovered, or the unlock of a mutex
    that is not locked, which is a fatal error of the Go runtime. *)
Definition unwind (c : call) (w : world) : option world :=
  match c with
  | CCron => None
  | _ => match deferred c with
         | DNone => Some w
         | DUnlock => match p_unlock with Step f => match f w with Go w' _ => Some w' | _ => None end | Ret _ => None end
         | DRUnlock => match p_runlock with Step f => match f w with Go w' _ => Some w' | _ => None end | Ret _ => None end
         end
  end.

(** ** One caller, recovering every panic: [None] in place of the reply of a call that panicked *)
Definition rec_call (t : Z) (c : call) (w : world) : option (world * option reply) :=
  match evalp (call_prog c) (set_now w t) with
  | PDone w' r => Some (w', Some r)
  | PBlocked => None
  | PPanic w' => match unwind c w' with Some w2 => Some (w2, None) | None => None end
  end.
Fixpoint rec_hist (h : list (Z * call)) (w : world) : option (world * list (option reply)) :=
  match h with
  | [] => Some (w, [])
  | (t, c) :: h => match rec_call t c w with
                   | Some (w1, r) => match rec_hist h w1 with Some (w2, rs) => Some (w2, r :: rs) | None => None end
                   | None => None
                   end
  end.

(** ** Many goroutines, each of which may recover *)
Record rconf := RConf { r_c : conf; r_calls : gmap nat call }.
Definition rstart (w : world) : rconf := RConf (start w) ∅.
Inductive ract := RAct (a : act) | RRecover (i : nat).
Inductive revent := REv (e : event) | ERec (i : nat).
(** [RRecover i]: the next operation of goroutine [i] panics; it unwinds, recovers and is out of the call *)
Definition rstep (a : ract) (c : rconf) : option (rconf * list revent) :=
  match a with
  | RAct a =>
    match cstep a (r_c c) with
    | None => None
    | Some (c', es) => Some (RConf c' match a with AInv i cl => <[i := cl]> (r_calls c) | ARet i => delete i (r_calls c) | _ => r_calls c end, map REv es)
    end
  | RRecover i =>
    match c_th (r_c c) !! i, r_calls c !! i with
    | Some (Step f), Some cl =>
      match f (c_w (r_c c)) with
      | Panic => match unwind cl (c_w (r_c c)) with
                 | Some w' => Some (RConf (Conf w' (delete i (c_th (r_c c)))) (delete i (r_calls c)), [ERec i])
                 | None => None
                 end
      | _ => None
      end
    | _, _ => None
    end
  end.
Fixpoint rexec (s : list ract) (c : rconf) : option (rconf * list revent) :=
  match s with
  | [] => Some (c, [])
  | a :: s => match rstep a c with
              | None => None
              | Some (c1, e) => match rexec s c1 with None => None | Some (c2, es) => Some (c2, e ++ es) end
              end
  end.
