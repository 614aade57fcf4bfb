(** * CacheSpec: vocabulary in which the cache properties are stated

    Everything here speaks about calls, replies and times; it does not use the
    helper functions of the model. *)
From Verif Require Import Base GoFloat CacheModel.

(** The replies a client sees when it issues the calls of [h], one after the other,
    each at its time; [None] when a call panics or blocks forever. *)
Definition replies (h : list (Z * call)) (w : world) : option (list reply) :=
  match run_hist h w with Done _ rs => Some rs | _ => None end.

(** The reply to one call. *)
Definition answer (t : Z) (c : call) (w : world) : option reply :=
  match run_call t c w with Done _ r => Some r | _ => None end.

(** No client can tell the two caches apart. *)
Definition indist (w1 w2 : world) : Prop := forall h, replies h w1 = replies h w2.

(** States reachable from New() by a single caller. *)
Definition reachable (w : world) : Prop :=
  exists t0 h rs, run_hist h (new_world t0) = Done w rs.

(** The value part of a stored entry never contains a pointer to another entry. *)
Definition scalar (v : gval) : Prop := match v with VHash _ => False | _ => True end.

(** Well-formed idle cache: made by New (dictionaries present), no call in progress,
    every stored hash pointer valid and owned by one key. *)
Record ready (w : world) : Prop := Ready {
  ready_writer : w_writer w = false;
  ready_readers : w_readers w = 0%nat;
  ready_data : exists d, w_data w = Some d /\
    (forall k l, d !! k = Some (VHash l) -> is_Some (w_heap w !! l)) /\
    (forall k k' l, d !! k = Some (VHash l) -> d !! k' = Some (VHash l) -> k = k');
  ready_exp : is_Some (w_exp w);
  ready_next : forall l, is_Some (w_heap w !! l) -> (l < w_next w)%positive;
  ready_flat : forall l o f v, w_heap w !! l = Some o -> h_map o !! f = Some v -> scalar v }.

(** The deadline recorded for a key. *)
Definition deadline (w : world) (k : gostr) : option Z :=
  match w_exp w with Some e => e !! k | None => None end.

(** The keys a call names; [None] for the calls that act on the whole cache. *)
Definition keys_of (c : call) : option (list gostr) :=
  match c with
  | CSet k _ | CSetNX k _ | CSetEX k _ _ | CPSetEX k _ _ | CGet k | CGetSet k _ | CStrLen k | CAppend k _
  | CSetRange k _ _ | CGetRange k _ _ | CIncr k | CIncrBy k _ | CIncrByFloat k _ | CDecr k | CDecrBy k _
  | CDel k | CType k
  | CHSet k _ _ | CHSetNX k _ _ | CHExists k _ | CHDel k _ | CHLen k | CHStrLen k _ | CHIncrBy k _ _
  | CHIncrByFloat k _ _ | CHMSet k _ | CHMGet k _ | CHKeys k | CHVals k | CHGetAll k | CHGet k _ => Some [k]
  | CMSet kv | CMSetNX kv => Some (map fst kv)
  | CMGet ks | CExists ks => Some ks
  | CFlush | CCron => None
  end.
Definition names (c : call) (k : gostr) : Prop :=
  match keys_of c with Some ks => k ∈ ks | None => True end.
(** The call names exactly the key [k]. *)
Definition only_names (c : call) (k : gostr) : Prop :=
  match keys_of c with Some ks => ks = [k] | None => False end.

(** What the dictionary holds under a key, expired or not. *)
Definition stored (w : world) (k : gostr) : option gval :=
  match w_data w with Some d => d !! k | None => None end.
(** The clock [t] is strictly past the deadline of [k]. *)
Definition past (w : world) (k : gostr) (t : Z) : Prop :=
  exists dl, deadline w k = Some dl /\ dl < t.

(** The text a value is kept as: strconv.Atoi then strconv.ParseFloat decide whether the
    text is a number literal, and numbers are rendered by strconv. *)
Definition text (v : gostr) : gostr :=
  match atoi v with
  | Some n => itoa n
  | None => match parse_float v with
            | Some f => format_float f
            | None => v
            end
  end.
(** Text that is kept as it is. *)
Definition plain (v : gostr) : Prop := text v = v.

(** Calls that only read. *)
Definition reads (c : call) : Prop :=
  match c with
  | CGet _ | CStrLen _ | CGetRange _ _ _ | CMGet _ | CExists _ | CType _ => True
  | _ => False
  end.

(** All calls of [h] satisfy [P]. *)
Definition all_calls (P : Z -> call -> Prop) (h : list (Z * call)) : Prop :=
  Forall (fun tc => P (fst tc) (snd tc)) h.

(** Replies spelled out. *)
Definition ok_str (s : gostr) : option reply := Some (RStr (s, None)).
Definition ok_int (n : Z) : option reply := Some (RInt (n, None)).
Definition err_str (e : goerr) : option reply := Some (RStr ([], Some e)).
Definition err_int (e : goerr) : option reply := Some (RInt (0, Some e)).

(** Get finds a value or complains about its type. *)
Definition readable (t : Z) (w : world) (k : gostr) : bool :=
  match answer t (CGet k) w with
  | Some (RStr (_, None)) | Some (RStr (_, Some ErrWrongType)) => true
  | _ => false
  end.
