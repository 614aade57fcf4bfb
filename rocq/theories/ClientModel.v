(** * ClientModel: remote commands (redis/command.go, redis/conn.go:49-70, redis/redis.go)

    A remote command is a request (its arguments) and a kind, which says how the reply is
    turned into the result. The connection is the reader of RespModel together with the bytes
    written so far; failures of the writer are not modelled. The pool is modelled in PoolModel:
    here the command has obtained its connection. *)
From Verif Require Import Base GoFloat RespModel.

(** The errors a command can return: errors.New of a text, or an error of Recv. *)
Inductive cerr := XText (s : gostr) | XRecv (e : rerr).
(** command.go:19-140: the six result structs; the two components are Val and Err.
    In MGet results [inl] is a string and [inr] the text of an error. *)
Inductive cval :=
| VStr (s : gostr) | VFloat (f : f64) | VInt (z : Z) | VMap (m : option (gmap gostr gostr)) | VArr (l : list (gostr + gostr)).
Inductive kind := KString | KFloat | KInt | KMap | KOK | KArr.
(** the struct before Parse *)
Definition zero_val (k : kind) : cval :=
  match k with
  | KString | KOK => VStr []
  | KFloat => VFloat (S754_zero false)
  | KInt => VInt 0
  | KMap => VMap None
  | KArr => VArr []
  end.

(** command.go:96-98: the loop of StringStringCommand.Parse *)
Fixpoint pairs_map (l : list msg) (m : gmap gostr gostr) : gmap gostr gostr :=
  match l with a :: b :: r => pairs_map r (<[msg_string a := msg_string b]> m) | _ => m end.
(** command.go:130-137: one element of InterfaceArrayCommand.Parse *)
Definition slot (m : msg) : gostr + gostr :=
  match m with MNil | MError _ => inr (msg_string m) | _ => inl (msg_string m) end.
(** command.go: the Parse methods (:43-45, :56-60, :71-75, :83-99, :107-116, :128-139) *)
Definition parse (k : kind) (m : msg) : cval * option cerr :=
  match k with
  | KString => (VStr (msg_string m), None)
  | KFloat =>                                                     (* :57 tests err != nil *)
    match parse_float (msg_string m) with
    | Some _ => (VFloat (S754_zero false), None)
    | None => (VFloat (parse_float_val (msg_string m)), None)
    end
  | KInt => match m with MInt n => (VInt n, None) | _ => (VInt 0, None) end
  | KMap =>
    match m with
    | MArr l => if Z.odd (zlen l) then (VMap None, Some (XText (bs "failed to parse response")))
                else (VMap (Some (pairs_map l ∅)), None)
    | _ => (VMap None, Some (XText (bs "failed to parse response")))
    end
  | KOK =>
    let '(t, err) := match m with MSimple s => (s, None) | _ => ([], Some (XText (bs "failed parse redis data"))) end in
    if bool_decide (t = bs "OK") then (VStr [], err) else (VStr [], Some (XText t))   (* :113-115 overwrites Err *)
  | KArr => match m with MArr l => (VArr (map slot l), None) | _ => (VArr [], None) end
  end.

(** conn.go:57-70 ExecCommand, the part after Recv *)
Definition decode (k : kind) (m : msg) : cval * option cerr :=
  match m with
  | MError s => (zero_val k, Some (XText s))
  | MNil => (zero_val k, Some (XText (msg_string MNil)))
  | _ => parse k m
  end.

(** redis.go:70-250: the methods of Redis that send one command. The pairs of MSet and MSetNX are
    the map's in the (unspecified) order in which range yields them. *)
Inductive rcall :=
| QSet (k v : gostr) | QSelect (i : Z) | QSetNX (k v : gostr) | QSetEX (k v : gostr) (n : Z) | QPSetEX (k v : gostr) (n : Z)
| QGet (k : gostr) | QGetSet (k v : gostr) | QStrLen (k : gostr) | QAppend (k v : gostr) | QSetRange (k : gostr) (off : Z) (v : gostr)
| QGetRange (k : gostr) (a b : Z) | QIncr (k : gostr) | QIncrBy (k : gostr) (n : Z) | QIncrByFloat (k : gostr) (f : f64)
| QDecr (k : gostr) | QDecrBy (k : gostr) (n : Z) | QMSet (kv : list (gostr * gostr)) | QMSetNX (kv : list (gostr * gostr)) | QMGet (ks : list gostr).
(** the loops redis.go:214-216 and :229-231 *)
Definition flat (kv : list (gostr * gostr)) : list gostr := concat (map (fun p => [fst p; snd p]) kv).
(** the arguments given to NewBaseCommand *)
Definition request (q : rcall) : list gostr :=
  match q with
  | QSet k v => [bs "set"; k; v]                                  (* redis.go:70 *)
  | QSelect i => [bs "select"; itoa i]                            (* :83 *)
  | QSetNX k v => [bs "SetNX"; k; v]                              (* :93 *)
  | QSetEX k v n => [bs "SetNX"; k; v; dec n]                     (* :101 *)
  | QPSetEX k v n => [bs "SetNX"; k; v; dec n]                    (* :109 *)
  | QGet k => [bs "get"; k]                                       (* :117 *)
  | QGetSet k v => [bs "GetSet"; k; v]                            (* :124 *)
  | QStrLen k => [bs "StrLen"; k]                                 (* :132 *)
  | QAppend k v => [bs "Append"; k; v]                            (* :141 *)
  | QSetRange k off v => [bs "SetRange"; k; itoa off; v]          (* :150 *)
  | QGetRange k a b => [bs "GetRange"; k; itoa a; itoa b]         (* :159 *)
  | QIncr k => [bs "Incr"; k]                                     (* :167 *)
  | QIncrBy k n => [bs "Incr"; k; itoa n]                         (* :176 *)
  | QIncrByFloat k f => [bs "IncrByFloat"; k; format_float f]     (* :185 *)
  | QDecr k => [bs "Decr"; k]                                     (* :194 *)
  | QDecrBy k n => [bs "DecrBy"; k; itoa n]                       (* :203 *)
  | QMSet kv => bs "MSet" :: flat kv                              (* :212 *)
  | QMSetNX kv => bs "MSetNX" :: flat kv                          (* :227 *)
  | QMGet ks => bs "MGet" :: ks                                   (* :243 *)
  end.
Definition kind_of (q : rcall) : kind :=
  match q with
  | QSet _ _ | QSelect _ | QSetNX _ _ | QSetEX _ _ _ | QPSetEX _ _ _ | QMSet _ => KOK
  | QGet _ | QGetSet _ _ | QGetRange _ _ _ => KString
  | QStrLen _ | QAppend _ _ | QSetRange _ _ _ | QIncr _ | QIncrBy _ _ | QDecr _ | QDecrBy _ _ | QMSetNX _ => KInt
  | QIncrByFloat _ _ => KFloat
  | QMGet _ => KArr
  end.

(** A connection: what has been written, and the reader. *)
Record conn := Conn { cn_out : gostr; cn_in : rd }.
Inductive outcome := CRet (v : cval) (e : option cerr) (c : conn) | CPanic.
(** conn.go:49-70 with redis.go:64-66 and the method's own Serialize (command.go:24-26) *)
Definition exec (q : rcall) (c : conn) : outcome :=
  let out := cn_out c ++ send (convert_to_message (request q)) in
  match recv (cn_in c) with
  | ROk m s => let '(v, e) := decode (kind_of q) m in CRet v e (Conn out s)
  | RErr e s => CRet (zero_val (kind_of q)) (Some (XRecv e)) (Conn out s)
  | RPanic | RFuel => CPanic
  end.
(** Several commands one after the other on one connection. *)
Fixpoint exec_all (qs : list rcall) (c : conn) : option (list (cval * option cerr) * conn) :=
  match qs with
  | [] => Some ([], c)
  | q :: r => match exec q c with
              | CRet v e c' => match exec_all r c' with Some (l, c'') => Some ((v, e) :: l, c'') | None => None end
              | CPanic => None
              end
  end.
