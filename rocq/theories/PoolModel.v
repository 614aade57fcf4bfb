(** * PoolModel: the connection pool (redis/pool.go) under arbitrary interleavings

    A transition system. A goroutine is at a program point of Get, Put or Close, or holds a
    connection it got ([Lent]: the body of ExecCommand/Exec, pool.go:100-109 and :113-122, whose
    deferred Put is the action [PRelease]). A connection is a number, given out in the order of
    successful dials. Simplifications: [pool.size++] (:48) happens together with the return of
    [create] (:44), both under the mutex, which guards every use of [size] (PoolFine.v does them apart,
    with the copies of the pool made by value receivers); connCloseHandler is
    empty (nothing in /repo appends to it); a buffered channel is a FIFO queue; the capacity is small
    enough for make(chan) (:33). *)
From stdpp Require Import gmap.
From Verif Require Import Base.

Inductive ppc :=
| GTry               (* :37 first select *)
| GLock              (* :42 *)
| GCheck             (* :43 *)
| GDial              (* :44 inside create *)
| GSend (c : nat)    (* :49 *)
| GUnlock            (* :51 *)
| GWait              (* :54 second select *)
| Lent (c : nat)     (* Get returned c *)
| PSend (c : nat)    (* :78 *)
| CRange             (* :84 *)
| CClose (c : nat).  (* :91 *)

Record pool := Pool { p_cap : nat; p_size : nat; p_chan : list nat; p_lock : bool; p_next : nat; p_th : gmap nat ppc }.
Definition set_th (t : gmap nat ppc) (p : pool) : pool := Pool (p_cap p) (p_size p) (p_chan p) (p_lock p) (p_next p) t.
Definition set_chan (l : list nat) (p : pool) : pool := Pool (p_cap p) (p_size p) l (p_lock p) (p_next p) (p_th p).
Definition set_lock (b : bool) (p : pool) : pool := Pool (p_cap p) (p_size p) (p_chan p) b (p_next p) (p_th p).

(** pool.go:25-34 Init *)
Definition pool_init (capacity : Z) : pool :=
  Pool (if capacity <=? 0 then 20 else Z.to_nat capacity) 0 [] false 0 ∅.

(** [PRun]: the goroutine's next step, when it is not blocked and has no outside cause. The others:
    calls, the outcome of a dial (Connect and the open handlers, :62-74), a context that is done,
    the result of closing a connection. *)
Inductive pact := PGet (i : nat) | PRun (i : nat) | PDialOk (i : nat) | PDialFail (i : nat) | PCancel (i : nat) | PRelease (i : nat) | PClose (i : nat) | PCloseOk (i : nat) | PCloseErr (i : nat).
Inductive pevent := EGot (i c : nat) | EGetErr (i : nat) | EPutDone (i : nat) | ECloseRet (i : nat).

Definition go (i : nat) (pc : ppc) (p : pool) : option (pool * list pevent) := Some (set_th (<[i := pc]> (p_th p)) p, []).
Definition ret (i : nat) (e : pevent) (p : pool) : option (pool * list pevent) := Some (set_th (delete i (p_th p)) p, [e]).

Definition pstep (a : pact) (p : pool) : option (pool * list pevent) :=
  match a with
  | PGet i => match p_th p !! i with None => go i GTry p | _ => None end
  | PClose i => match p_th p !! i with None => go i CRange p | _ => None end
  | PRelease i => match p_th p !! i with Some (Lent c) => go i (PSend c) p | _ => None end
  | PDialOk i =>
    match p_th p !! i with
    | Some GDial => Some (Pool (p_cap p) (S (p_size p)) (p_chan p) (p_lock p) (S (p_next p)) (<[i := GSend (p_next p)]> (p_th p)), [])
    | _ => None
    end
  | PDialFail i => match p_th p !! i with Some GDial => ret i (EGetErr i) p | _ => None end    (* :45-47: no Unlock *)
  | PCancel i => match p_th p !! i with Some GWait => ret i (EGetErr i) p | _ => None end
  | PCloseOk i => match p_th p !! i with Some (CClose _) => go i CRange p | _ => None end
  | PCloseErr i => match p_th p !! i with Some (CClose _) => ret i (ECloseRet i) p | _ => None end
  | PRun i =>
    match p_th p !! i with
    | Some GTry =>
      match p_chan p with
      | c :: r => Some (set_th (<[i := Lent c]> (p_th p)) (set_chan r p), [EGot i c])
      | [] => go i GLock p
      end
    | Some GLock => if p_lock p then None else go i GCheck (set_lock true p)
    | Some GCheck => if Nat.ltb (p_size p) (p_cap p) then go i GDial p else go i GUnlock p
    | Some (GSend c) => if Nat.ltb (length (p_chan p)) (p_cap p) then go i GUnlock (set_chan (p_chan p ++ [c]) p) else None
    | Some GUnlock => go i GWait (set_lock false p)
    | Some GWait =>
      match p_chan p with
      | c :: r => Some (set_th (<[i := Lent c]> (p_th p)) (set_chan r p), [EGot i c])
      | [] => None
      end
    | Some (PSend c) => if Nat.ltb (length (p_chan p)) (p_cap p) then ret i (EPutDone i) (set_chan (p_chan p ++ [c]) p) else None
    | Some CRange =>
      match p_chan p with
      | c :: r => go i (CClose c) (set_chan r p)
      | [] => None                                              (* the channel is never closed *)
      end
    | _ => None
    end
  end.
Fixpoint pexec (s : list pact) (p : pool) : option (pool * list pevent) :=
  match s with
  | [] => Some (p, [])
  | a :: r => match pstep a p with
              | Some (p', e) => match pexec r p' with Some (p'', e') => Some (p'', e ++ e') | None => None end
              | None => None
              end
  end.
