(** * RemoteModel: remote commands through the pool (redis/redis.go:20-66, redis/pool.go:36-111)

    The methods of Redis, called by any number of goroutines: the pool of PoolModel together with its connections,
    which are those of ClientModel. Sending a request and receiving its reply are two steps, between which other
    goroutines run. Simplifications: opening a connection, which no other goroutine knows yet, is one step; the
    stream of a connection is what the server will ever send on it, and has ended when nothing is left of
    it; failures of the writer are not modelled; Close is not called. MaxRetry and the timeouts of Option are
    never read by the code. *)
From stdpp Require Import gmap.
From Verif Require Import Base GoFloat RespModel ClientModel PoolModel.

(** redis.go:24-33: the fields of Option that are used, beside the address *)
Record ropt := ROpt { o_size : Z; o_database : Z; o_password : gostr }.
(** redis.go:40-62: the requests of the handlers NewClient registers, in order *)
Definition open_requests (o : ropt) : list (list gostr) :=
  (if bool_decide (o_password o = []) then [] else [[bs "auth"; o_password o]]) ++
  (if 0 <? o_database o then [[bs "select"; itoa (o_database o)]] else []).
(** pool.go:66-70: the handlers on a new connection; both use StringCommand *)
Inductive opened := OOpen (c : conn) | OFail (e : cerr) | OCrash.
Fixpoint open_conn (rs : list (list gostr)) (c : conn) : opened :=
  match rs with
  | [] => OOpen c
  | r :: rs =>
    let out := cn_out c ++ send (convert_to_message r) in
    match recv (cn_in c) with
    | ROk m s => match snd (decode KString m) with Some e => OFail e | None => open_conn rs (Conn out s) end
    | RErr e _ => OFail (XRecv e)
    | RPanic | RFuel => OCrash
    end
  end.

(** Where a goroutine is in a method with the call [q]: in Get, between Send and Recv (conn.go:49-55), or with the result. *)
Inductive job := JGet (q : rcall) | JSent (q : rcall) | JRet (v : cval) (e : option cerr).
Record remote := Remote { m_opt : ropt; m_pool : pool; m_conn : gmap nat conn; m_job : gmap nat job; m_dead : bool }.
(** redis.go:35-63 NewClient *)
Definition new_client (o : ropt) : remote := Remote o (pool_init (o_size o)) ∅ ∅ false.

(** [MRun]: a step inside Get or Put; [MDial i x]: Connect fails with an error text, or yields a connection with
    the stream [cs] on which the handlers are run; [MPut]: the deferred Put begins *)
Inductive mact := MCall (i : nat) (q : rcall) | MRun (i : nat) | MDial (i : nat) (x : gostr + list gostr) | MSend (i : nat) | MRecv (i : nat) | MPut (i : nat).
(** [MDid i q c v e]: the command [q] got its result on the connection [c], or none; [MReturned]: the method returned it *)
Inductive mevent := MDid (i : nat) (q : rcall) (c : option nat) (v : cval) (e : option cerr) | MReturned (i : nat) (v : cval) (e : option cerr).

Definition set_pool (p : pool) (j : gmap nat job) (r : remote) : remote := Remote (m_opt r) p (m_conn r) j (m_dead r).
Definition set_conn (c : nat) (x : conn) (j : gmap nat job) (r : remote) : remote := Remote (m_opt r) (m_pool r) (<[c := x]> (m_conn r)) j (m_dead r).
Definition die (r : remote) : remote := Remote (m_opt r) (m_pool r) (m_conn r) (m_job r) true.

Definition mstep (a : mact) (r : remote) : option (remote * list mevent) :=
  if m_dead r then None else
  match a with
  | MCall i q =>
    match m_job r !! i with
    | None => match pstep (PGet i) (m_pool r) with Some (p, _) => Some (set_pool p (<[i := JGet q]> (m_job r)) r, []) | None => None end
    | Some _ => None
    end
  | MRun i =>
    match pstep (PRun i) (m_pool r) with
    | Some (p, [EPutDone _]) => match m_job r !! i with
                                | Some (JRet v e) => Some (set_pool p (delete i (m_job r)) r, [MReturned i v e])
                                | _ => None
                                end
    | Some (p, _) => Some (set_pool p (m_job r) r, [])
    | None => None
    end
  | MDial i x =>
    let fail (e : cerr) :=                                                       (* pool.go:45-47, :104-107 *)
      match pstep (PDialFail i) (m_pool r), m_job r !! i with
      | Some (p, _), Some (JGet q) => Some (set_pool p (delete i (m_job r)) r, [MDid i q None (zero_val (kind_of q)) (Some e); MReturned i (zero_val (kind_of q)) (Some e)])
      | _, _ => None
      end in
    match x with
    | inl t => fail (XText t)
    | inr cs =>
      match open_conn (open_requests (m_opt r)) (Conn [] (new_rd cs)) with
      | OOpen c => match pstep (PDialOk i) (m_pool r) with
                   | Some (p, _) => Some (Remote (m_opt r) p (<[p_next (m_pool r) := c]> (m_conn r)) (m_job r) false, [])
                   | None => None
                   end
      | OFail e => fail e
      | OCrash => match p_th (m_pool r) !! i with Some GDial => Some (die r, []) | _ => None end
      end
    end
  | MSend i =>
    match p_th (m_pool r) !! i, m_job r !! i with
    | Some (Lent c), Some (JGet q) =>
      match m_conn r !! c with
      | Some x => Some (set_conn c (Conn (cn_out x ++ send (convert_to_message (request q))) (cn_in x)) (<[i := JSent q]> (m_job r)) r, [])
      | None => None
      end
    | _, _ => None
    end
  | MRecv i =>
    match p_th (m_pool r) !! i, m_job r !! i with
    | Some (Lent c), Some (JSent q) =>
      match m_conn r !! c with
      | Some x =>
        match recv (cn_in x) with
        | ROk m s => let '(v, e) := decode (kind_of q) m in
                     Some (set_conn c (Conn (cn_out x) s) (<[i := JRet v e]> (m_job r)) r, [MDid i q (Some c) v e])
        | RErr e s => let v := zero_val (kind_of q) in
                      Some (set_conn c (Conn (cn_out x) s) (<[i := JRet v (Some (XRecv e))]> (m_job r)) r, [MDid i q (Some c) v (Some (XRecv e))])
        | RPanic | RFuel => Some (die r, [])
        end
      | None => None
      end
    | _, _ => None
    end
  | MPut i =>
    match m_job r !! i with
    | Some (JRet _ _) => match pstep (PRelease i) (m_pool r) with Some (p, _) => Some (set_pool p (m_job r) r, []) | None => None end
    | _ => None
    end
  end.
Fixpoint mexec (l : list mact) (r : remote) : option (remote * list mevent) :=
  match l with
  | [] => Some (r, [])
  | a :: l => match mstep a r with
              | Some (r', e) => match mexec l r' with Some (r'', e') => Some (r'', e ++ e') | None => None end
              | None => None
              end
  end.
