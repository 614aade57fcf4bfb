(** Acks: what a replica sends to its master after the snapshot was saved, with the replication of ReplModel.v.
    redis/replication.go:98-118 (ack, Ack), xxcache.go:51-57.
    Simplifications: the bytes of one ack reach the connection in one piece (one Write of the connection); the
    ticker's ticks come at any moment (this only adds schedules). *)
From Coq Require Import ZArith List.
From Coq.Init Require Import Byte.
From stdpp Require Import base gmap list.
From Verif Require Import Base RespModel RdbModel CacheModel ReplModel.
Import ListNotations.
Local Open Scope Z_scope.

(** [a_off]: the field Offset (replication.go:24); [a_sent]: what was written to the connection since the snapshot was saved *)
Record ar := AR { a_rs : rs; a_off : Z; a_sent : gostr }.
(** xxcache.go:48-51: Load runs before Ack is started and is the only caller of SetReplicationOffset
    (replication.go:167-169); nothing else writes the field, so that it has Load's last value from the start of Ack on *)
Definition ack_started (range : gmap gostr gostr -> list (gostr * gostr)) (w : world) (file : gostr) (net : rd) : ar :=
  let '(_, _, st) := load range 0 [file] in AR (started range w file net) (l_off st) [].

(** [BRepl a]: a step of ReplModel.v, among them a failing ack; [BAck]: a tick whose ack is sent *)
Inductive aact := BRepl (a : ract) | BAck.
(** replication.go:98-101: NewBaseCommand("ReplConf", "ack", strconv.Itoa(repl.Offset)) *)
Definition ack_bytes (off : Z) : gostr := send (convert_to_message [bs "ReplConf"; bs "ack"; itoa off]).
(** replication.go:112-118 *)
Definition astep (sel : Z) (a : aact) (s : ar) : option (ar * list revent) :=
  match a with
  | BRepl x => match rstep sel x (a_rs s) with Some (r, e) => Some (AR r (a_off s) (a_sent s), e) | None => None end
  | BAck => if r_dead (a_rs s) then None else
            match r_ack (a_rs s) with AIdle => Some (AR (a_rs s) (a_off s) (a_sent s ++ ack_bytes (a_off s)), []) | _ => None end
  end.
Fixpoint aexec (sel : Z) (l : list aact) (s : ar) : option (ar * list revent) :=
  match l with
  | [] => Some (s, [])
  | a :: r => match astep sel a s with
              | Some (s', e) => match aexec sel r s' with Some (s'', e') => Some (s'', e ++ e') | None => None end
              | None => None
              end
  end.
