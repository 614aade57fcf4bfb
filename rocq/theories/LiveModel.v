From stdpp Require Import gmap list.
From Verif Require Import Base GoFloat RespModel ClientModel PoolModel RemoteModel.

(** * LiveModel: the remote client of RemoteModel.v together with the server it talks to

    In RemoteModel.v the stream of a connection holds all the server will ever send.  Here the server is there: a machine with one
    state for all clients that reads the requests of a connection from the bytes sent on it, one at a time, changes its state and
    replies.  It serves the connections in any order; the reply to a request arrives in any pieces.  Reading from a connection
    blocks while nothing has arrived.  Simplifications beside those of RemoteModel.v: the server never closes a connection; what it
    replies to the open handlers is arbitrary, and they do not change its state.  The code of /repo is that of RemoteModel.v
    (redis/redis.go:20-66, redis/pool.go:36-111, redis/conn.go:49-70); what is defined here is its environment. *)

(** The Redis protocol: how a server expects a request *)
Definition arg_bytes (a : gostr) : gostr := bs "$" ++ dec (zlen a) ++ [CR; LF] ++ a ++ [CR; LF].
Definition request_bytes (args : list gostr) : gostr := bs "*" ++ dec (zlen args) ++ [CR; LF] ++ concat (map arg_bytes args).

(** [v_got]: how many of the bytes sent on a connection the server has read *)
Record live (S : Type) := Live { v_cl : remote; v_st : S; v_got : gmap nat nat }.
Arguments Live {S}. Arguments v_cl {S}. Arguments v_st {S}. Arguments v_got {S}.
(** [VServe c args cs]: the server reads the request [args] from the connection [c], and its reply arrives in the pieces [cs] *)
Inductive vact := VDo (a : mact) | VServe (c : nat) (args : list gostr) (cs : list gostr).
(** [VServed w c args m cs]: the server replied [m]; [w] is the goroutine that holds the connection *)
Inductive vevent := VCalled (i : nat) (q : rcall) | VServed (w : option nat) (c : nat) (args : list gostr) (m : msg) (cs : list gostr) | VEv (x : mevent).

Definition holder (r : remote) (c : nat) : option nat :=
  head (omap (fun ip => match snd ip with Lent d => if bool_decide (c = d) then Some (fst ip) else None | _ => None end) (map_to_list (p_th (m_pool r)))).
(** redis/conn.go:49-55: reading blocks while nothing has arrived; the server has sent nothing it was not asked for *)
Definition may (a : mact) (r : remote) : bool :=
  match a with
  | MRecv i => match p_th (m_pool r) !! i with
               | Some (Lent c) => match m_conn r !! c with Some x => bool_decide (bytes_left (cn_in x) <> []) | None => true end
               | _ => true
               end
  | MDial _ (inr cs) => match open_conn (open_requests (m_opt r)) (Conn [] (new_rd cs)) with
                        | OOpen x => bool_decide (bytes_left (cn_in x) = [])
                        | _ => true
                        end
  | _ => true
  end.
(** redis/pool.go:66-70: the requests of the open handlers have been read *)
Definition got_after (r r' : remote) (g : gmap nat nat) : gmap nat nat :=
  let c := p_next (m_pool r) in
  match m_conn r !! c, m_conn r' !! c with None, Some x => <[c := length (cn_out x)]> g | _, _ => g end.
Definition vstep {S} (srv : nat -> list gostr -> S -> S * msg) (a : vact) (v : live S) : option (live S * list vevent) :=
  let r := v_cl v in
  match a with
  | VDo a =>
    if may a r then
      match mstep a r with
      | Some (r', e) => Some (Live r' (v_st v) (got_after r r' (v_got v)), match a with MCall i q => [VCalled i q] | _ => [] end ++ map VEv e)
      | None => None
      end
    else None
  | VServe c args cs =>
    match m_conn r !! c, v_got v !! c with
    | Some x, Some n =>
      let b := request_bytes args in
      if bool_decide (take (length b) (drop n (cn_out x)) = b) then
        let '(st, m) := srv c args (v_st v) in
        let x' := Conn (cn_out x) (Rd (r_buf (cn_in x)) (r_src (cn_in x) ++ cs)) in
        Some (Live (set_conn c x' (m_job r) r) st (<[c := (n + length b)%nat]> (v_got v)), [VServed (holder r c) c args m cs])
      else None
    | _, _ => None
    end
  end.
Fixpoint vexec {S} (srv : nat -> list gostr -> S -> S * msg) (l : list vact) (v : live S) : option (live S * list vevent) :=
  match l with
  | [] => Some (v, [])
  | a :: l => match vstep srv a v with
              | Some (v', e) => match vexec srv l v' with Some (v'', e') => Some (v'', e ++ e') | None => None end
              | None => None
              end
  end.
Definition new_live {S} (o : ropt) (st : S) : live S := Live (new_client o) st ∅.
