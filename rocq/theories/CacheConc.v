(** * CacheConc: goroutines calling the cache concurrently

    The same programs as in CacheModel.v, interleaved: any number of goroutines, each
    issuing any calls, and a clock that may advance between any two atomic operations.
    Simplification: the plain (unsynchronised) accesses of the code (the fields
    [hashEntry.length], [Cache.dataDict]) are single atomic operations, i.e. Go's
    undefined behaviour for data races is not modelled (CacheRace.v: where the races are;
    CacheFine.v: reading a dictionary pointer as a step of its own; CacheRange.v: Range
    by its documentation alone). *)
From Verif Require Import Base GoFloat CacheModel CacheSpec.

(** The shared cache and the goroutines that are inside a call. *)
Record conf := Conf { c_w : world; c_th : gmap nat (prog reply) }.
Definition start (w : world) : conf := Conf w ∅.

(** What a schedule does next: goroutine [i] calls, goroutine [i] performs its next atomic
    operation, goroutine [i] returns from its call, the clock moves to [t]. *)
Inductive act := AInv (i : nat) (c : call) | ARun (i : nat) | ARet (i : nat) | ATick (t : Z).
(** What can be observed from outside. *)
Inductive event := EInv (i : nat) (c : call) | ERet (i : nat) (r : reply) | ETick (t : Z).

Definition cstep (a : act) (c : conf) : option (conf * list event) :=
  match a with
  | AInv i cl =>
    match c_th c !! i with
    | Some _ => None
    | None => Some (Conf (c_w c) (<[i := call_prog cl]> (c_th c)), [EInv i cl])
    end
  | ARun i =>
    match c_th c !! i with
    | Some (Step f) => match f (c_w c) with
                       | Go w' p' => Some (Conf w' (<[i := p']> (c_th c)), [])
                       | _ => None
                       end
    | _ => None
    end
  | ARet i =>
    match c_th c !! i with
    | Some (Ret r) => Some (Conf (c_w c) (delete i (c_th c)), [ERet i r])
    | _ => None
    end
  | ATick t => if w_now (c_w c) <=? t then Some (Conf (set_now (c_w c) t) (c_th c), [ETick t]) else None
  end.

(** [cexec s c = Some (c', evs)]: the schedule [s] is possible from [c], leads to [c'] and
    shows the events [evs]. *)
Fixpoint cexec (s : list act) (c : conf) : option (conf * list event) :=
  match s with
  | [] => Some (c, [])
  | a :: r => match cstep a c with
              | None => None
              | Some (c1, e) => match cexec r c1 with
                                | None => None
                                | Some (c2, es) => Some (c2, e ++ es)
                                end
              end
  end.

(** Goroutine [i] can perform its next operation (or return). *)
Definition enabled (c : conf) (i : nat) : Prop :=
  match c_th c !! i with
  | Some (Ret _) => True
  | Some (Step f) => match f (c_w c) with Blocked => False | _ => True end
  | None => False
  end.
(** The next operation of goroutine [i] crashes the process. *)
Definition crashing (c : conf) (i : nat) : Prop :=
  match c_th c !! i with Some (Step f) => f (c_w c) = Panic | _ => False end.

(** ** Linearizability

    [lin_ok w0 A m clk last ws]: the list [A] is an observed history with a decision point
    inserted for every call, strictly between its invocation and its return; the decision
    points, read in order, are a sequential run from [w0] that ends in [ws], at times that
    never go back and lie between the invocation and the clock [clk]. [m] tells for every
    goroutine in a call whether the decision point has been passed. *)
Inductive item := IEv (e : event) | ILin (i : nat) (t : Z) (c : call) (r : reply).
Inductive tst := Called (c : call) (t0 : Z) | Decided (r : reply).
Inductive lin_ok (w0 : world) : list item -> gmap nat tst -> Z -> Z -> world -> Prop :=
| lo_nil : lin_ok w0 [] ∅ (w_now w0) (w_now w0) w0
| lo_inv A m clk last ws i c :
    lin_ok w0 A m clk last ws -> m !! i = None ->
    lin_ok w0 (A ++ [IEv (EInv i c)]) (<[i := Called c clk]> m) clk last ws
| lo_tick A m clk last ws t :
    lin_ok w0 A m clk last ws -> clk <= t ->
    lin_ok w0 (A ++ [IEv (ETick t)]) m t last ws
| lo_lin A m clk last ws i c t0 t ws' r :
    lin_ok w0 A m clk last ws -> m !! i = Some (Called c t0) ->
    t0 <= t -> last <= t -> t <= clk -> run_call t c ws = Done ws' r ->
    lin_ok w0 (A ++ [ILin i t c r]) (<[i := Decided r]> m) clk t ws'
| lo_ret A m clk last ws i r :
    lin_ok w0 A m clk last ws -> m !! i = Some (Decided r) ->
    lin_ok w0 (A ++ [IEv (ERet i r)]) (delete i m) clk last ws.

(** The observed history: decision points forgotten. *)
Definition observed (A : list item) : list event :=
  omap (fun x => match x with IEv e => Some e | ILin _ _ _ _ => None end) A.
(** The sequential history: the decision points in order. *)
Definition lin_calls (A : list item) : list (Z * call) :=
  omap (fun x => match x with ILin _ t c _ => Some (t, c) | _ => None end) A.
Definition lin_replies (A : list item) : list reply :=
  omap (fun x => match x with ILin _ _ _ r => Some r | _ => None end) A.
Definition same_cache (w1 w2 : world) : Prop := set_now w1 0 = set_now w2 0.

(** All calls issued in a history satisfy [P]. *)
Definition calls_in (P : call -> Prop) (evs : list event) : Prop := forall i c, EInv i c ∈ evs -> P c.

(** Restricting a class of concurrent calls. *)
Definition takes_lock (c : call) : Prop :=
  match c with
  | CSet _ _ | CSetNX _ _ | CSetEX _ _ _ | CPSetEX _ _ _ | CGetSet _ _ | CAppend _ _ | CSetRange _ _ _
  | CIncr _ | CIncrBy _ _ | CIncrByFloat _ _ | CDecr _ | CDecrBy _ _ | CDel _ | CFlush => True
  | _ => False
  end.
