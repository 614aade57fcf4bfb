(** * CacheModel: the package /repo/cache, method by method

    Every method is written once, as a [prog]: a tree whose nodes are the atomic
    operations the Go method performs, in order: lock operations, operations of the
    sync.Map dictionaries, clock readings, accesses to the fields of a heap-allocated
    hash entry.  [eval] runs a program alone (sequential meaning); CacheConc.v
    interleaves programs of many goroutines over the same definitions. *)
From Verif Require Import Base GoFloat.

(** ** Values (the dynamic types the code's type switches mention,
    cachestring.go:61-84, 249-267; cachehash.go:177-196) *)
Inductive gval :=
| VStr (s : gostr)
| VInt (z : Z)        (* Go int   *)
| VInt64 (z : Z)
| VInt32 (z : Z)
| VUint (z : Z)
| VUint32 (z : Z)
| VUint64 (z : Z)
| VFloat (f : f64)
| VHash (l : positive).   (* *hashEntry: a pointer *)

(** cachehash.go:8-11  hashEntry { sync.Map; length int } *)
Record hobj := HObj { h_map : gmap gostr gval; h_len : Z }.

(** cache.go:18-22.  [None] for a dictionary is the nil interface (a Cache made with
    new(Cache) instead of New).  sync.RWMutex is a writer flag and a reader count
    (simplification: no writer preference; this only adds schedules).
    Time is in nanoseconds since the Unix epoch. *)
Record world := W {
  w_data : option (gmap gostr gval);
  w_exp  : option (gmap gostr Z);
  w_heap : gmap positive hobj;
  w_next : positive;
  w_writer : bool;
  w_readers : nat;
  w_now : Z }.

Definition set_data w d := W (Some d) (w_exp w) (w_heap w) (w_next w) (w_writer w) (w_readers w) (w_now w).
Definition set_exp w e := W (w_data w) (Some e) (w_heap w) (w_next w) (w_writer w) (w_readers w) (w_now w).
Definition set_heap w h := W (w_data w) (w_exp w) h (w_next w) (w_writer w) (w_readers w) (w_now w).
Definition set_now w t := W (w_data w) (w_exp w) (w_heap w) (w_next w) (w_writer w) (w_readers w) t.
Definition set_lock w b n := W (w_data w) (w_exp w) (w_heap w) (w_next w) b n (w_now w).

(** cache.go:9-16  New() *)
Definition new_world (t : Z) : world := W (Some ∅) (Some ∅) ∅ 1%positive false 0 t.
(** xxcache.go:34  new(cache.Cache): both dictionaries are nil interfaces *)
Definition zero_world (t : Z) : world := W None None ∅ 1%positive false 0 t.

(** ** Programs *)
Inductive ares (A : Type) := Go (w : world) (a : A) | Blocked | Panic.
Arguments Go {A} w a. Arguments Blocked {A}. Arguments Panic {A}.

Inductive prog (R : Type) := Ret (r : R) | Step (f : world -> ares (prog R)).
Arguments Ret {R} r. Arguments Step {R} f.

Fixpoint pbind {A B} (p : prog A) (k : A -> prog B) : prog B :=
  match p with
  | Ret r => k r
  | Step f => Step (fun w => match f w with
                             | Go w' p' => Go w' (pbind p' k)
                             | Blocked => Blocked
                             | Panic => Panic
                             end)
  end.

Notation "'do' x <- p ; q" := (pbind p (fun x => q)) (at level 100, x pattern, p at level 99, right associativity).
Notation "p ;;; q" := (pbind p (fun _ => q)) (at level 100, right associativity).

Inductive eres (R : Type) := Done (w : world) (r : R) | EBlocked | EPanic.
Arguments Done {R} w r. Arguments EBlocked {R}. Arguments EPanic {R}.

(** Sequential meaning: run without interruption (the clock does not advance during a
    call; CacheConc.v lets it advance between any two steps). *)
Fixpoint eval {R} (p : prog R) (w : world) : eres R :=
  match p with
  | Ret r => Done w r
  | Step f => match f w with
              | Go w' p' => eval p' w'
              | Blocked => EBlocked
              | Panic => EPanic
              end
  end.

(** ** Atomic operations *)
Definition atom {A} (f : world -> ares A) : prog A :=
  Step (fun w => match f w with Go w' a => Go w' (Ret a) | Blocked => Blocked | Panic => Panic end).

Definition panic {A} : prog A := Step (fun _ => Panic).

(** sync.RWMutex *)
Definition p_lock : prog unit := atom (fun w =>
  if w_writer w || negb (Nat.eqb (w_readers w) 0) then Blocked else Go (set_lock w true 0) tt).
Definition p_unlock : prog unit := atom (fun w =>
  if w_writer w then Go (set_lock w false (w_readers w)) tt else Panic).
Definition p_rlock : prog unit := atom (fun w =>
  if w_writer w then Blocked else Go (set_lock w false (S (w_readers w))) tt).
Definition p_runlock : prog unit := atom (fun w =>
  match w_readers w with O => Panic | S n => Go (set_lock w (w_writer w) n) tt end).

(** time.Now() *)
Definition p_now : prog Z := atom (fun w => Go w (w_now w)).

(** database.go:5-15: the dictionaries (sync.Map).  Calling a method of a nil interface panics. *)
Definition data_load (k : gostr) : prog (option gval) := atom (fun w =>
  match w_data w with None => Panic | Some d => Go w (d !! k) end).
Definition data_store (k : gostr) (v : gval) : prog unit := atom (fun w =>
  match w_data w with None => Panic | Some d => Go (set_data w (<[k := v]> d)) tt end).
Definition data_delete (k : gostr) : prog unit := atom (fun w =>
  match w_data w with None => Panic | Some d => Go (set_data w (delete k d)) tt end).
(** LoadOrStore returns (actual, loaded). *)
Definition data_load_or_store (k : gostr) (v : gval) : prog (gval * bool) := atom (fun w =>
  match w_data w with
  | None => Panic
  | Some d => match d !! k with
              | Some x => Go w (x, true)
              | None => Go (set_data w (<[k := v]> d)) (v, false)
              end
  end).
(** Range, as sync.Map does it: the keys are those of one moment, in an unspecified order; the value of each is loaded when
    it is visited, and a key deleted meanwhile is left out. (Simplification: a key deleted and stored again before
    its visit is always visited.) *)
Definition data_keys : prog (list gostr) := atom (fun w =>
  match w_data w with None => Panic | Some d => Go w (map fst (map_to_list d)) end).
Definition exp_load (k : gostr) : prog (option Z) := atom (fun w =>
  match w_exp w with None => Panic | Some e => Go w (e !! k) end).
Definition exp_store (k : gostr) (t : Z) : prog unit := atom (fun w =>
  match w_exp w with None => Panic | Some e => Go (set_exp w (<[k := t]> e)) tt end).
Definition exp_delete (k : gostr) : prog unit := atom (fun w =>
  match w_exp w with None => Panic | Some e => Go (set_exp w (delete k e)) tt end).
(** assignments c.dataDict = &SyncMapDatabase{} and c.expiresDict = ... (cachedb.go:20-21) *)
Definition data_reset : prog unit := atom (fun w => Go (set_data w ∅) tt).
Definition exp_reset : prog unit := atom (fun w => Go (set_exp w ∅) tt).

(** hash entries (pointer targets) *)
Definition h_alloc : prog positive := atom (fun w =>
  Go (W (w_data w) (w_exp w) (<[w_next w := HObj ∅ 0]> (w_heap w)) (Pos.succ (w_next w))
        (w_writer w) (w_readers w) (w_now w)) (w_next w)).
Definition h_atom {A} (l : positive) (f : hobj -> hobj * A) : prog A := atom (fun w =>
  match w_heap w !! l with
  | None => Panic
  | Some o => let '(o', a) := f o in Go (set_heap w (<[l := o']> (w_heap w))) a
  end).
Definition h_load l (f : gostr) : prog (option gval) := h_atom l (fun o => (o, h_map o !! f)).
Definition h_store l (f : gostr) (v : gval) : prog unit := h_atom l (fun o => (HObj (<[f := v]> (h_map o)) (h_len o), tt)).
Definition h_delete l (f : gostr) : prog unit := h_atom l (fun o => (HObj (delete f (h_map o)) (h_len o), tt)).
Definition h_load_or_store l (f : gostr) (v : gval) : prog (gval * bool) := h_atom l (fun o =>
  match h_map o !! f with
  | Some x => (o, (x, true))
  | None => (HObj (<[f := v]> (h_map o)) (h_len o), (v, false))
  end).
Definition h_get_len l : prog Z := h_atom l (fun o => (o, h_len o)).
Definition h_set_len l (n : Z) : prog unit := h_atom l (fun o => (HObj (h_map o) n, tt)).
Definition h_keys l : prog (list gostr) := h_atom l (fun o => (o, map fst (map_to_list (h_map o)))).
Fixpoint h_visit l (ks : list gostr) : prog (list (gostr * gval)) :=
  match ks with
  | [] => Ret []
  | k :: r => do v <- h_load l k; do es <- h_visit l r; Ret match v with Some x => (k, x) :: es | None => es end
  end.
Definition h_range l : prog (list (gostr * gval)) := do ks <- h_keys l; h_visit l ks.

(** ** Errors (cache.go:30-32, cachehash.go:205) *)
Inductive goerr := ErrKeyNil | ErrWrongType | ErrOffsetOutOfRange | ErrHashValueIsNotFloat.

(** ** cachestring.go *)

(** cachestring.go:16-26 tryInt64 *)
Definition try_int64 (s : gostr) : gval :=
  match atoi s with
  | Some n => VInt n
  | None => match parse_float s with
            | Some f => VFloat f
            | None => VStr s
            end
  end.

(** cachestring.go:61-84 fmtString; [None] is ErrWrongType *)
Definition fmt_string (v : gval) : option gostr :=
  match v with
  | VStr s => Some s
  | VInt z | VInt32 z | VInt64 z => Some (itoa z)
  | VUint z | VUint32 z | VUint64 z => Some (itoa (wrap64 z))
  | VFloat f => Some (format_float f)
  | VHash _ => None
  end.

(** A Go (value, error) pair. *)
Definition gret (A : Type) : Type := A * option goerr.
Definition fmt_ret (v : gval) : gret gostr :=
  match fmt_string v with Some s => (s, None) | None => ([], Some ErrWrongType) end.

Definition locked {A} (p : prog A) : prog A := p_lock;;; do r <- p; p_unlock;;; Ret r.
Definition rlocked {A} (p : prog A) : prog A := p_rlock;;; do r <- p; p_runlock;;; Ret r.

(** cacheutil.go:6-24 expired *)
Definition expired (k : gostr) : prog bool :=
  do v <- exp_load k;
  match v with
  | None => Ret false
  | Some d =>
    do t <- p_now;
    if d <? t then data_delete k;;; exp_delete k;;; Ret true else Ret false
  end.

(** cacheutil.go:28-34 expires *)
Definition expires (k : gostr) (dur : Z) : prog unit :=
  if dur <=? 0 then exp_delete k
  else do t <- p_now; exp_store k (t + dur).

(** cacheutil.go:36-48 get *)
Definition c_get (k : gostr) : prog (option gval) :=
  do v <- data_load k;
  match v with
  | None => Ret None
  | Some x => do e <- expired k; Ret (if e then None else Some x)
  end.

Definition second : Z := 1000000000.
Definition millisecond : Z := 1000000.

(** cachestring.go:8-14 *)
Definition m_set (k v : gostr) : prog (gret gostr) :=
  locked (data_store k (try_int64 v);;; Ret (bs "OK", None)).
(** cachestring.go:29-38 *)
Definition m_setnx (k v : gostr) : prog (gret Z) :=
  locked (do r <- data_load_or_store k (try_int64 v); Ret (if snd r then 0 else 1, None)).
(** cachestring.go:41-49; time.Second*time.Duration(expires) wraps in int64 *)
Definition m_setex (k v : gostr) (n : Z) : prog (gret gostr) :=
  locked (data_store k (try_int64 v);;; expires k (wrap64 (second * n));;; Ret (bs "OK", None)).
(** cachestring.go:51-59 *)
Definition m_psetex (k v : gostr) (n : Z) : prog (gret gostr) :=
  locked (data_store k (try_int64 v);;; expires k (wrap64 (millisecond * n));;; Ret (bs "OK", None)).
(** cachestring.go:88-98 *)
Definition m_get (k : gostr) : prog (gret gostr) :=
  rlocked (do v <- c_get k;
           Ret match v with None => ([], Some ErrKeyNil) | Some x => fmt_ret x end).
(** cachestring.go:100-113 *)
Definition m_getset (k v : gostr) : prog (gret gostr) :=
  locked (do old <- c_get k;
          data_store k (try_int64 v);;;
          Ret match old with None => ([], Some ErrKeyNil) | Some x => fmt_ret x end).

(** The test [!ok || c.expired(key)] of StrLen, Append, SetRange, GetRange
    (cachestring.go:119-120, 135-136, 160-161, 199-200). *)
Definition load_live (k : gostr) : prog (option gval) :=
  do v <- data_load k;
  match v with
  | None => Ret None
  | Some x => do e <- expired k; Ret (if e then None else Some x)
  end.

(** cachestring.go:115-129 *)
Definition m_strlen (k : gostr) : prog (gret Z) :=
  rlocked (do v <- load_live k;
           Ret match v with
               | None => (0, None)
               | Some x => match fmt_string x with
                           | None => (0, Some ErrWrongType)
                           | Some s => (zlen s, None)
                           end
               end).
(** cachestring.go:131-149 *)
Definition m_append (k v : gostr) : prog (gret Z) :=
  locked (do old <- load_live k;
          match old with
          | None => data_store k (try_int64 v);;; Ret (zlen v, None)
          | Some x => match fmt_string x with
                      | None => Ret (0, Some ErrWrongType)
                      | Some s => data_store k (try_int64 (s ++ v));;; Ret (zlen (s ++ v), None)
                      end
          end).

(** cachestring.go:182-189: the overwrite loop of SetRange, [p] = pos+i *)
Fixpoint setrange_loop (str : gostr) (p : nat) (r : gostr) : gostr :=
  match r with
  | [] => str
  | b :: r' => setrange_loop (if (p <? length str)%nat then <[p := b]> str else str ++ [b]) (S p) r'
  end.

(** cachestring.go:151-193 *)
Definition m_setrange (k : gostr) (pos : Z) (r : gostr) : prog (gret Z) :=
  locked (
    if pos <? 0 then Ret (0, Some ErrOffsetOutOfRange)
    else
      let n := Z.to_nat pos in
      do old <- load_live k;
      match old with
      | None =>
        if pos >? max_alloc then panic (* make *)
        else
          let s := repeat x00 n ++ r in
          data_store k (try_int64 s);;; Ret (zlen s, None)
      | Some x =>
        match fmt_string x with
        | None => Ret (0, Some ErrWrongType)
        | Some o =>
          let s := setrange_loop (o ++ repeat x00 (n - length o)%nat) n r in
          data_store k (try_int64 s);;; Ret (zlen s, None)
        end
      end).

(** cachestring.go:215-226: the copy loop of GetRange from index [i].  The iterations with
    i < 0 only [continue]; we start at max(start,0), and more than len iterations are cut
    by the [break], so the fuel len+1 is exact. *)
Fixpoint getrange_loop (fuel : nat) (s : gostr) (i e : Z) : gostr :=
  match fuel with
  | O => []
  | S f => if i <=? e then
             match s !! Z.to_nat i with
             | None => []
             | Some b => b :: getrange_loop f s (i + 1) e
             end
           else []
  end.

(** cachestring.go:195-228 *)
Definition m_getrange (k : gostr) (st en : Z) : prog (gret gostr) :=
  rlocked (do old <- load_live k;
           Ret match old with
               | None => ([], None)
               | Some x =>
                 match fmt_string x with
                 | None => ([], Some ErrWrongType)
                 | Some s =>
                   let st' := if st <? 0 then zlen s + st else st in
                   let en' := if en <? 0 then zlen s + en else en in
                   (getrange_loop (S (length s)) s (Z.max 0 st') en', None)
                 end
               end).

(** cachestring.go:249-267: the type switch of incrBy: new stored value and returned int *)
Definition incr_val (v : gval) (d : Z) : option (gval * Z) :=
  match v with
  | VUint64 t => let s := wrapu64 (t + d) in Some (VUint64 s, wrap64 s)
  | VUint32 t => let s := wrapu32 (t + d) in Some (VUint32 s, s)
  | VInt64 t => let s := wrap64 (t + d) in Some (VInt64 s, s)
  | VInt32 t => let s := wrap32 (t + d) in Some (VInt32 s, s)
  | VInt t => let s := wrap64 (t + d) in Some (VInt s, s)
  | _ => None
  end.

(** cachestring.go:241-272 incrBy *)
Definition incr_by (k : gostr) (d : Z) : prog (gret Z) :=
  do r <- data_load_or_store k (VInt64 d);
  if negb (snd r) then Ret (d, None)
  else match incr_val (fst r) d with
       | None => Ret (0, Some ErrWrongType)
       | Some (v, n) => data_store k v;;; Ret (n, None)
       end.
(** cachestring.go:234-239, 230-232 *)
Definition m_incrby (k : gostr) (d : Z) : prog (gret Z) := locked (incr_by k d).
Definition m_incr (k : gostr) : prog (gret Z) := m_incrby k 1.
(** cachestring.go:297-310 *)
Definition m_decr (k : gostr) : prog (gret Z) := locked (incr_by k (-1)).
Definition m_decrby (k : gostr) (d : Z) : prog (gret Z) := locked (incr_by k (wrap64 (- d))).

(** cachestring.go:274-295 *)
Definition m_incrbyfloat (k : gostr) (f : f64) : prog (gret f64) :=
  locked (
    do r <- data_load_or_store k (VFloat f);
    if negb (snd r) then Ret (f, None)
    else match fst r with
         | VFloat x => let s := f64_add x f in data_store k (VFloat s);;; Ret (s, None)
         | VInt z => let s := f64_add (f64_of_int z) f in data_store k (VFloat s);;; Ret (s, None)
         | _ => Ret (S754_zero false, Some ErrWrongType)
         end).

(** cachestring.go:312-321; the argument is the sequence of pairs in the order the
    Go runtime iterates over the map *)
Fixpoint mset_loop (kv : list (gostr * gostr)) : prog unit :=
  match kv with
  | [] => Ret tt
  | (k, v) :: r => data_store k (try_int64 v);;; mset_loop r
  end.
Definition m_mset (kv : list (gostr * gostr)) : prog gostr := mset_loop kv;;; Ret (bs "OK").

(** cachestring.go:323-336 *)
Fixpoint msetnx_loop (kv : list (gostr * gostr)) (n : Z) : prog Z :=
  match kv with
  | [] => Ret n
  | (k, v) :: r => do x <- data_load_or_store k (try_int64 v);
                   msetnx_loop r (if snd x then n else n + 1)
  end.
Definition m_msetnx (kv : list (gostr * gostr)) : prog Z := msetnx_loop kv 0.

(** One slot of an MGet / HMGet answer: a string or an error value. *)
Inductive slot := SlotStr (s : gostr) | SlotErr (e : goerr).

(** cachestring.go:338-356 *)
Definition slot_of (v : option gval) : slot :=
  match v with
  | None => SlotErr ErrKeyNil
  | Some x => match fmt_string x with Some s => SlotStr s | None => SlotErr ErrWrongType end
  end.
Fixpoint mget_loop (ks : list gostr) : prog (list slot) :=
  match ks with
  | [] => Ret []
  | k :: r => do v <- c_get k; do rest <- mget_loop r; Ret (slot_of v :: rest)
  end.
Definition m_mget (ks : list gostr) : prog (list slot) := mget_loop ks.

(** ** cachedb.go *)

(** cachedb.go:3-15 *)
Definition m_del (k : gostr) : prog Z :=
  locked (do v <- c_get k;
          data_delete k;;; exp_delete k;;;
          Ret match v with Some _ => 1 | None => 0 end).
(** cachedb.go:17-22 *)
Definition m_flush : prog unit := locked (data_reset;;; exp_reset).
(** cachedb.go:24-32 *)
Fixpoint exists_loop (ks : list gostr) (n : Z) : prog Z :=
  match ks with
  | [] => Ret n
  | k :: r => do v <- data_load k; exists_loop r (match v with Some _ => n + 1 | None => n end)
  end.
Definition m_exists (ks : list gostr) : prog Z := exists_loop ks 0.
(** cachedb.go:34-46: the switch tests the struct type hashEntry, but only pointers
    *hashEntry are ever stored, so the first case never matches. *)
Definition m_type (k : gostr) : prog gostr :=
  do v <- c_get k;
  Ret match v with
      | None => bs "none"
      | Some _ => bs "string"
      end.

(** ** cachecron.go *)

(** time.Time{}: January 1, year 1 *)
Definition zero_time : Z := -62135596800 * second.
(** cachecron.go:9-21: the callback, for one entry of dataDict.  No value is a time.Time,
    so [ok] is false and [expire] is the zero time. *)
Fixpoint cron_loop (ks : list gostr) : prog unit :=
  match ks with
  | [] => Ret tt
  | k :: r =>
    do v <- data_load k;
    (if v then
       exp_delete k;;;
       do t <- p_now;
       (if zero_time <? t then exp_delete k;;; data_delete k else Ret tt)
     else Ret tt);;;
    cron_loop r
  end.
(** cachecron.go:7-24: one tick of the ticker *)
Definition m_cron_tick : prog unit := locked (do ks <- data_keys; cron_loop ks).

(** ** cachehash.go *)

(** cachehash.go:13-22 hashEntry.get *)
Definition he_get (l : positive) (f : gostr) : prog (option gostr) :=
  do v <- h_load l f;
  Ret match v with
      | None => None
      | Some x => Some (match fmt_string x with Some s => s | None => [] end)
      end.
(** cachehash.go:24-34 hashEntry.set *)
Definition he_set (l : positive) (f v : gostr) : prog Z :=
  do r <- h_load_or_store l f (try_int64 v);
  (if snd r then h_store l f (try_int64 v) else Ret tt);;;
  let n := if snd r then 0 else 1 in
  do len <- h_get_len l;
  h_set_len l (wrap64 (len + n));;;
  Ret n.

(** cachehash.go:40-51 getHashEntry: nil entry, entry, or ErrWrongType *)
Inductive hres := HNil | HEntry (l : positive) | HWrong.
Definition get_hash_entry (k : gostr) : prog hres :=
  do v <- c_get k;
  Ret match v with
      | None => HNil
      | Some (VHash l) => HEntry l
      | Some _ => HWrong
      end.
(** newHash() and c.dataDict.Store(key, he) (cachehash.go:59-62 and repeated) *)
Definition new_hash (k : gostr) : prog positive :=
  do l <- h_alloc; data_store k (VHash l);;; Ret l.
Definition get_or_new (k : gostr) (h : hres) : prog positive :=
  match h with HEntry l => Ret l | _ => new_hash k end.

(** cachehash.go:53-65 *)
Definition m_hset (k f v : gostr) : prog (gret Z) :=
  do h <- get_hash_entry k;
  match h with
  | HWrong => Ret (0, Some ErrWrongType)
  | _ => do l <- get_or_new k h; do n <- he_set l f v; Ret (n, None)
  end.
(** cachehash.go:68-85 *)
Definition m_hsetnx (k f v : gostr) : prog (gret Z) :=
  do h <- get_hash_entry k;
  match h with
  | HWrong => Ret (0, Some ErrWrongType)
  | _ => do l <- get_or_new k h;
         do r <- h_load_or_store l f (VStr v);
         if snd r then Ret (0, None)
         else do len <- h_get_len l; h_set_len l (wrap64 (len + 1));;; Ret (1, None)
  end.
(** cachehash.go:88-105 *)
Definition m_hexists (k f : gostr) : prog (gret Z) :=
  do h <- get_hash_entry k;
  match h with
  | HWrong => Ret (0, Some ErrWrongType)
  | HNil => Ret (0, None)
  | HEntry l => do v <- he_get l f;
                let n := match v with Some _ => 1 | None => 0 end in
                do len <- h_get_len l;
                h_set_len l (wrap64 (len - n));;;
                Ret (n, None)
  end.
(** cachehash.go:118-123 *)
Fixpoint hdel_loop (l : positive) (fs : list gostr) (n : Z) : prog Z :=
  match fs with
  | [] => Ret n
  | f :: r => do v <- he_get l f;
              match v with
              | Some _ => h_delete l f;;; hdel_loop l r (n + 1)
              | None => hdel_loop l r n
              end
  end.
(** cachehash.go:108-130 *)
Definition m_hdel (k : gostr) (fs : list gostr) : prog (gret Z) :=
  do h <- get_hash_entry k;
  match h with
  | HWrong => Ret (0, Some ErrWrongType)
  | HNil => Ret (0, None)
  | HEntry l => do n <- hdel_loop l fs 0;
                (if n =? 0 then Ret tt else do len <- h_get_len l; h_set_len l (wrap64 (len - n)));;;
                Ret (n, None)
  end.
(** cachehash.go:133-144 *)
Definition m_hlen (k : gostr) : prog (gret Z) :=
  do h <- get_hash_entry k;
  match h with
  | HWrong => Ret (0, Some ErrWrongType)
  | HNil => Ret (0, None)
  | HEntry l => do n <- h_get_len l; Ret (n, None)
  end.
(** cachehash.go:147-158 *)
Definition m_hstrlen (k f : gostr) : prog (gret Z) :=
  do h <- get_hash_entry k;
  match h with
  | HWrong => Ret (0, Some ErrWrongType)
  | HNil => Ret (0, None)
  | HEntry l => do v <- he_get l f; Ret (match v with Some s => zlen s | None => 0 end, None)
  end.

(** cachehash.go:177-196: the type switch of HIncrBy *)
Definition hincr_val (v : gval) (d : Z) : option Z :=
  match v with
  | VStr s => if bool_decide (s = []) then Some d else None
  | VInt z | VInt32 z | VInt64 z | VUint32 z | VUint64 z => Some (wrap64 (z + d))
  | _ => None
  end.
(** cachehash.go:160-203; both stores write strconv.Itoa(increment) *)
Definition m_hincrby (k f : gostr) (d : Z) : prog (gret Z) :=
  do h <- get_hash_entry k;
  match h with
  | HWrong => Ret (0, Some ErrWrongType)
  | _ => do l <- get_or_new k h;
         do v <- h_load l f;
         match v with
         | None => do _u <- he_set l f (itoa d); Ret (d, None)
         | Some x => match hincr_val x d with
                     | None => Ret (0, Some ErrHashValueIsNotFloat)
                     | Some n => do _u <- he_set l f (itoa d); Ret (n, None)
                     end
         end
  end.
(** cachehash.go:224-243 *)
Definition hincrf_val (v : gval) (d : f64) : option f64 :=
  match v with
  | VStr s => if bool_decide (s = []) then Some d else None
  | VInt z | VInt32 z | VInt64 z | VUint32 z | VUint64 z => Some (f64_add (f64_of_int z) d)
  | _ => None
  end.
(** cachehash.go:207-250 *)
Definition m_hincrbyfloat (k f : gostr) (d : f64) : prog (gret f64) :=
  do h <- get_hash_entry k;
  match h with
  | HWrong => Ret (S754_zero false, Some ErrWrongType)
  | _ => do l <- get_or_new k h;
         do v <- h_load l f;
         match v with
         | None => do _u <- he_set l f (format_float d); Ret (d, None)
         | Some x => match hincrf_val x d with
                     | None => Ret (S754_zero false, Some ErrHashValueIsNotFloat)
                     | Some n => do _u <- he_set l f (format_float d); Ret (n, None)
                     end
         end
  end.
(** cachehash.go:263-265, pairs in iteration order *)
Fixpoint hmset_loop (l : positive) (fv : list (gostr * gostr)) (n : Z) : prog Z :=
  match fv with
  | [] => Ret n
  | (f, v) :: r => do x <- he_set l f v; hmset_loop l r (n + x)
  end.
(** cachehash.go:252-268 *)
Definition m_hmset (k : gostr) (fv : list (gostr * gostr)) : prog (gret Z) :=
  do h <- get_hash_entry k;
  match h with
  | HWrong => Ret (0, Some ErrWrongType)
  | _ => do l <- get_or_new k h; do n <- hmset_loop l fv 0; Ret (n, None)
  end.
(** cachehash.go:278-289 *)
Fixpoint hmget_loop (h : hres) (fs : list gostr) : prog (list slot) :=
  match fs with
  | [] => Ret []
  | f :: r => do s <- match h with
                      | HEntry l => do v <- he_get l f;
                                    Ret match v with Some s => SlotStr s | None => SlotErr ErrKeyNil end
                      | _ => Ret (SlotErr ErrKeyNil)
                      end;
              do rest <- hmget_loop h r; Ret (s :: rest)
  end.
(** cachehash.go:271-292 *)
Definition m_hmget (k : gostr) (fs : list gostr) : prog (gret (list slot)) :=
  do h <- get_hash_entry k;
  match h with
  | HWrong => Ret ([], Some ErrWrongType)
  | _ => do s <- hmget_loop h fs; Ret (s, None)
  end.
(** cachehash.go:295-309; on an absent key [he] is nil and he.Range dereferences it *)
Definition m_hkeys (k : gostr) : prog (gret (list gostr)) :=
  do h <- get_hash_entry k;
  match h with
  | HWrong => Ret ([], Some ErrWrongType)
  | HNil => panic
  | HEntry l => do es <- h_range l; Ret (map fst es, None)
  end.
(** cachehash.go:312-326: only values whose dynamic type is string are kept *)
Definition m_hvals (k : gostr) : prog (gret (list gostr)) :=
  do h <- get_hash_entry k;
  match h with
  | HWrong => Ret ([], Some ErrWrongType)
  | HNil => panic
  | HEntry l => do es <- h_range l;
                Ret (omap (fun e => match snd e with VStr s => Some s | _ => None end) es, None)
  end.
(** cachehash.go:329-346: [kv] is a nil map; an entry is stored only if fmtString FAILED,
    and storing into a nil map panics.  The result is [None] (nil map). *)
Definition hgetall_bad (e : gostr * gval) : bool :=
  match fmt_string (snd e) with Some _ => false | None => true end.
Definition m_hgetall (k : gostr) : prog (gret (option (gmap gostr gostr))) :=
  do h <- get_hash_entry k;
  match h with
  | HWrong => Ret (None, Some ErrWrongType)
  | HNil => panic
  | HEntry l => do es <- h_range l;
                if existsb hgetall_bad es then panic else Ret (None, None)
  end.
(** cachehash.go:348-367 *)
Definition m_hget (k f : gostr) : prog (gret gostr) :=
  do h <- get_hash_entry k;
  match h with
  | HWrong => Ret ([], Some ErrWrongType)
  | HNil => Ret ([], Some ErrKeyNil)
  | HEntry l => do v <- he_get l f;
                Ret match v with None => ([], Some ErrKeyNil) | Some s => (s, None) end
  end.

(** ** The API as one type of calls *)
Inductive call :=
| CSet (k v : gostr) | CSetNX (k v : gostr) | CSetEX (k v : gostr) (n : Z) | CPSetEX (k v : gostr) (n : Z)
| CGet (k : gostr) | CGetSet (k v : gostr) | CStrLen (k : gostr) | CAppend (k v : gostr)
| CSetRange (k : gostr) (pos : Z) (r : gostr) | CGetRange (k : gostr) (st en : Z)
| CIncr (k : gostr) | CIncrBy (k : gostr) (d : Z) | CIncrByFloat (k : gostr) (f : f64)
| CDecr (k : gostr) | CDecrBy (k : gostr) (d : Z)
| CMSet (kv : list (gostr * gostr)) | CMSetNX (kv : list (gostr * gostr)) | CMGet (ks : list gostr)
| CDel (k : gostr) | CFlush | CExists (ks : list gostr) | CType (k : gostr) | CCron
| CHSet (k f v : gostr) | CHSetNX (k f v : gostr) | CHExists (k f : gostr) | CHDel (k : gostr) (fs : list gostr)
| CHLen (k : gostr) | CHStrLen (k f : gostr) | CHIncrBy (k f : gostr) (d : Z) | CHIncrByFloat (k f : gostr) (d : f64)
| CHMSet (k : gostr) (fv : list (gostr * gostr)) | CHMGet (k : gostr) (fs : list gostr)
| CHKeys (k : gostr) | CHVals (k : gostr) | CHGetAll (k : gostr) | CHGet (k f : gostr).

Inductive reply :=
| RStr (r : gret gostr) | RInt (r : gret Z) | RFloat (r : gret f64)
| RSlots (r : gret (list slot)) | RList (r : gret (list gostr)) | RMap (r : gret (option (gmap gostr gostr))) | RUnit.

Definition pmap {A B} (f : A -> B) (p : prog A) : prog B := do x <- p; Ret (f x).
Definition noerr {A} (x : A) : gret A := (x, None).

Definition call_prog (c : call) : prog reply :=
  match c with
  | CSet k v => pmap RStr (m_set k v)
  | CSetNX k v => pmap RInt (m_setnx k v)
  | CSetEX k v n => pmap RStr (m_setex k v n)
  | CPSetEX k v n => pmap RStr (m_psetex k v n)
  | CGet k => pmap RStr (m_get k)
  | CGetSet k v => pmap RStr (m_getset k v)
  | CStrLen k => pmap RInt (m_strlen k)
  | CAppend k v => pmap RInt (m_append k v)
  | CSetRange k p r => pmap RInt (m_setrange k p r)
  | CGetRange k a b => pmap RStr (m_getrange k a b)
  | CIncr k => pmap RInt (m_incr k)
  | CIncrBy k d => pmap RInt (m_incrby k d)
  | CIncrByFloat k f => pmap RFloat (m_incrbyfloat k f)
  | CDecr k => pmap RInt (m_decr k)
  | CDecrBy k d => pmap RInt (m_decrby k d)
  | CMSet kv => pmap (fun s => RStr (noerr s)) (m_mset kv)
  | CMSetNX kv => pmap (fun n => RInt (noerr n)) (m_msetnx kv)
  | CMGet ks => pmap (fun l => RSlots (noerr l)) (m_mget ks)
  | CDel k => pmap (fun n => RInt (noerr n)) (m_del k)
  | CFlush => pmap (fun _ => RUnit) m_flush
  | CExists ks => pmap (fun n => RInt (noerr n)) (m_exists ks)
  | CType k => pmap (fun s => RStr (noerr s)) (m_type k)
  | CCron => pmap (fun _ => RUnit) m_cron_tick
  | CHSet k f v => pmap RInt (m_hset k f v)
  | CHSetNX k f v => pmap RInt (m_hsetnx k f v)
  | CHExists k f => pmap RInt (m_hexists k f)
  | CHDel k fs => pmap RInt (m_hdel k fs)
  | CHLen k => pmap RInt (m_hlen k)
  | CHStrLen k f => pmap RInt (m_hstrlen k f)
  | CHIncrBy k f d => pmap RInt (m_hincrby k f d)
  | CHIncrByFloat k f d => pmap RFloat (m_hincrbyfloat k f d)
  | CHMSet k fv => pmap RInt (m_hmset k fv)
  | CHMGet k fs => pmap RSlots (m_hmget k fs)
  | CHKeys k => pmap RList (m_hkeys k)
  | CHVals k => pmap RList (m_hvals k)
  | CHGetAll k => pmap RMap (m_hgetall k)
  | CHGet k f => pmap RStr (m_hget k f)
  end.

(** A sequential history: each call with the clock value at which it runs. *)
Definition run_call (t : Z) (c : call) (w : world) : eres reply := eval (call_prog c) (set_now w t).

Fixpoint run_hist (h : list (Z * call)) (w : world) : eres (list reply) :=
  match h with
  | [] => Done w []
  | (t, c) :: r =>
    match run_call t c w with
    | Done w' x => match run_hist r w' with
                   | Done w'' xs => Done w'' (x :: xs)
                   | EBlocked => EBlocked
                   | EPanic => EPanic
                   end
    | EBlocked => EBlocked
    | EPanic => EPanic
    end
  end.
