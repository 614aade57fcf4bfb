From stdpp Require Import base list gmap sets.
From Coq Require Import ZArith Lia.
From Coq Require Import Floats.SpecFloat.
From Verif Require Import Base GoFloat CacheModel CacheSpec CacheAbs CacheConc ConcSafe.
Local Open Scope Z_scope.

(** * Which operations touch plain memory

    CacheModel.v and CacheConc.v interleave atomic operations (sequential consistency).  The Go memory model promises
    that only to programs without data races.  Here every operation of every method is labelled with what it does to
    memory that is not guarded by a synchronising operation of its own:

    - [PData], [PExp]: the two dictionary pointers c.dataDict and c.expiresDict (cache.go:18-22).  Every use of a
      dictionary reads the pointer; Flush writes both (cachedb.go:20-21).
    - [PLen l]: the field [length] of the hashEntry at address [l] (cachehash.go:8-11).

    Methods of sync.Map synchronise by themselves, time.Now touches nothing, and a new hashEntry is known to its maker
    alone until it is stored.  Locks are their own labels. *)
Inductive loc := PData | PExp | PLen (l : positive).
Definition access : Type := loc * bool. (* [true]: a write *)
Inductive label := LLock | LUnlock | LRLock | LRUnlock | LAcc (a : list access).
Definition rd (x : loc) : label := LAcc [(x, false)].
Definition wr (x : loc) : label := LAcc [(x, true)].

Inductive lprog (R : Type) := LRet (r : R) | LStep (b : label) (f : world -> ares (lprog R)).
Arguments LRet {R} r. Arguments LStep {R} b f.

Fixpoint lbind {A B} (p : lprog A) (k : A -> lprog B) : lprog B :=
  match p with
  | LRet r => k r
  | LStep b f => LStep b (fun w => match f w with
                                   | Go w' p' => Go w' (lbind p' k)
                                   | Blocked => Blocked
                                   | Panic => Panic
                                   end)
  end.
Local Notation "'do' x <- p ; q" := (lbind p (fun x => q)) (at level 100, x pattern, p at level 99, right associativity).
Local Notation "p ;;; q" := (lbind p (fun _ => q)) (at level 100, right associativity).

(** An operation of CacheModel.v with its label. *)
Fixpoint tag {A} (b : label) (p : prog A) : lprog A :=
  match p with
  | Ret r => LRet r
  | Step f => LStep b (fun w => match f w with
                                | Go w' p' => Go w' (tag b p')
                                | Blocked => Blocked
                                | Panic => Panic
                                end)
  end.

(** ** The operations *)
Definition l_panic {A} : lprog A := tag (LAcc []) panic.
Definition l_p_lock : lprog unit := tag LLock p_lock.
Definition l_p_unlock : lprog unit := tag LUnlock p_unlock.
Definition l_p_rlock : lprog unit := tag LRLock p_rlock.
Definition l_p_runlock : lprog unit := tag LRUnlock p_runlock.
Definition l_p_now : lprog Z := tag (LAcc []) p_now.
(** database.go:5-15 called through c.dataDict and c.expiresDict *)
Definition l_data_load (k : gostr) : lprog (option gval) := tag (rd PData) (data_load k).
Definition l_data_store (k : gostr) (v : gval) : lprog unit := tag (rd PData) (data_store k v).
Definition l_data_delete (k : gostr) : lprog unit := tag (rd PData) (data_delete k).
Definition l_data_load_or_store (k : gostr) (v : gval) : lprog (gval * bool) := tag (rd PData) (data_load_or_store k v).
Definition l_data_keys : lprog (list gostr) := tag (rd PData) data_keys.
Definition l_exp_load (k : gostr) : lprog (option Z) := tag (rd PExp) (exp_load k).
Definition l_exp_store (k : gostr) (t : Z) : lprog unit := tag (rd PExp) (exp_store k t).
Definition l_exp_delete (k : gostr) : lprog unit := tag (rd PExp) (exp_delete k).
(** cachedb.go:20-21 *)
Definition l_data_reset : lprog unit := tag (wr PData) data_reset.
Definition l_exp_reset : lprog unit := tag (wr PExp) exp_reset.
(** hash entries: newHash, the sync.Map inside, and the plain field [length] *)
Definition l_h_alloc : lprog positive := tag (LAcc []) h_alloc.
Definition l_h_load l (f : gostr) : lprog (option gval) := tag (LAcc []) (h_load l f).
Definition l_h_store l (f : gostr) (v : gval) : lprog unit := tag (LAcc []) (h_store l f v).
Definition l_h_delete l (f : gostr) : lprog unit := tag (LAcc []) (h_delete l f).
Definition l_h_load_or_store l (f : gostr) (v : gval) : lprog (gval * bool) := tag (LAcc []) (h_load_or_store l f v).
Definition l_h_get_len l : lprog Z := tag (rd (PLen l)) (h_get_len l).
Definition l_h_set_len l (n : Z) : lprog unit := tag (wr (PLen l)) (h_set_len l n).
Definition l_h_keys l : lprog (list gostr) := tag (LAcc []) (h_keys l).
Fixpoint l_h_visit l (ks : list gostr) : lprog (list (gostr * gval)) :=
  match ks with
  | [] => LRet []
  | k :: r => do v <- l_h_load l k; do es <- l_h_visit l r; LRet match v with Some x => (k, x) :: es | None => es end
  end.
Definition l_h_range l : lprog (list (gostr * gval)) := do ks <- l_h_keys l; l_h_visit l ks.

(** ** The methods, word for word those of CacheModel.v ([tagged_call] below proves it) *)
Definition l_locked {A} (p : lprog A) : lprog A := l_p_lock;;; do r <- p; l_p_unlock;;; LRet r.
Definition l_rlocked {A} (p : lprog A) : lprog A := l_p_rlock;;; do r <- p; l_p_runlock;;; LRet r.
(** cacheutil.go:6-24 expired *)
Definition l_expired (k : gostr) : lprog bool :=
  do v <- l_exp_load k;
  match v with
  | None => LRet false
  | Some d =>
    do t <- l_p_now;
    if d <? t then l_data_delete k;;; l_exp_delete k;;; LRet true else LRet false
  end.
(** cacheutil.go:28-34 expires *)
Definition l_expires (k : gostr) (dur : Z) : lprog unit :=
  if dur <=? 0 then l_exp_delete k
  else do t <- l_p_now; l_exp_store k (t + dur).
(** cacheutil.go:36-48 get *)
Definition l_c_get (k : gostr) : lprog (option gval) :=
  do v <- l_data_load k;
  match v with
  | None => LRet None
  | Some x => do e <- l_expired k; LRet (if e then None else Some x)
  end.
(** cachestring.go:8-14 *)
Definition l_m_set (k v : gostr) : lprog (gret gostr) :=
  l_locked (l_data_store k (try_int64 v);;; LRet (bs "OK", None)).
(** cachestring.go:29-38 *)
Definition l_m_setnx (k v : gostr) : lprog (gret Z) :=
  l_locked (do r <- l_data_load_or_store k (try_int64 v); LRet (if snd r then 0 else 1, None)).
(** cachestring.go:41-49; time.Second*time.Duration(expires) wraps in int64 *)
Definition l_m_setex (k v : gostr) (n : Z) : lprog (gret gostr) :=
  l_locked (l_data_store k (try_int64 v);;; l_expires k (wrap64 (second * n));;; LRet (bs "OK", None)).
(** cachestring.go:51-59 *)
Definition l_m_psetex (k v : gostr) (n : Z) : lprog (gret gostr) :=
  l_locked (l_data_store k (try_int64 v);;; l_expires k (wrap64 (millisecond * n));;; LRet (bs "OK", None)).
(** cachestring.go:88-98 *)
Definition l_m_get (k : gostr) : lprog (gret gostr) :=
  l_rlocked (do v <- l_c_get k;
           LRet match v with None => ([], Some ErrKeyNil) | Some x => fmt_ret x end).
(** cachestring.go:100-113 *)
Definition l_m_getset (k v : gostr) : lprog (gret gostr) :=
  l_locked (do old <- l_c_get k;
          l_data_store k (try_int64 v);;;
          LRet match old with None => ([], Some ErrKeyNil) | Some x => fmt_ret x end).
(** The test [!ok || c.expired(key)] of StrLen, Append, SetRange, GetRange
    (cachestring.go:119-120, 135-136, 160-161, 199-200). *)
Definition l_load_live (k : gostr) : lprog (option gval) :=
  do v <- l_data_load k;
  match v with
  | None => LRet None
  | Some x => do e <- l_expired k; LRet (if e then None else Some x)
  end.
(** cachestring.go:115-129 *)
Definition l_m_strlen (k : gostr) : lprog (gret Z) :=
  l_rlocked (do v <- l_load_live k;
           LRet match v with
               | None => (0, None)
               | Some x => match fmt_string x with
                           | None => (0, Some ErrWrongType)
                           | Some s => (zlen s, None)
                           end
               end).
(** cachestring.go:131-149 *)
Definition l_m_append (k v : gostr) : lprog (gret Z) :=
  l_locked (do old <- l_load_live k;
          match old with
          | None => l_data_store k (try_int64 v);;; LRet (zlen v, None)
          | Some x => match fmt_string x with
                      | None => LRet (0, Some ErrWrongType)
                      | Some s => l_data_store k (try_int64 (s ++ v));;; LRet (zlen (s ++ v), None)
                      end
          end).
(** cachestring.go:151-193 *)
Definition l_m_setrange (k : gostr) (pos : Z) (r : gostr) : lprog (gret Z) :=
  l_locked (
    if pos <? 0 then LRet (0, Some ErrOffsetOutOfRange)
    else
      let n := Z.to_nat pos in
      do old <- l_load_live k;
      match old with
      | None =>
        if pos >? max_alloc then l_panic (* make *)
        else
          let s := repeat x00 n ++ r in
          l_data_store k (try_int64 s);;; LRet (zlen s, None)
      | Some x =>
        match fmt_string x with
        | None => LRet (0, Some ErrWrongType)
        | Some o =>
          let s := setrange_loop (o ++ repeat x00 (n - length o)%nat) n r in
          l_data_store k (try_int64 s);;; LRet (zlen s, None)
        end
      end).
(** cachestring.go:195-228 *)
Definition l_m_getrange (k : gostr) (st en : Z) : lprog (gret gostr) :=
  l_rlocked (do old <- l_load_live k;
           LRet match old with
               | None => ([], None)
               | Some x =>
                 match fmt_string x with
                 | None => ([], Some ErrWrongType)
                 | Some s =>
                   let st' := if st <? 0 then zlen s + st else st in
                   let en' := if en <? 0 then zlen s + en else en in
                   (getrange_loop (S (length s)) s (Z.max 0 st') en', None)
                 end
               end).
(** cachestring.go:241-272 incrBy *)
Definition l_incr_by (k : gostr) (d : Z) : lprog (gret Z) :=
  do r <- l_data_load_or_store k (VInt64 d);
  if negb (snd r) then LRet (d, None)
  else match incr_val (fst r) d with
       | None => LRet (0, Some ErrWrongType)
       | Some (v, n) => l_data_store k v;;; LRet (n, None)
       end.
(** cachestring.go:234-239, 230-232 *)
Definition l_m_incrby (k : gostr) (d : Z) : lprog (gret Z) := l_locked (l_incr_by k d).
Definition l_m_incr (k : gostr) : lprog (gret Z) := l_m_incrby k 1.
(** cachestring.go:297-310 *)
Definition l_m_decr (k : gostr) : lprog (gret Z) := l_locked (l_incr_by k (-1)).
Definition l_m_decrby (k : gostr) (d : Z) : lprog (gret Z) := l_locked (l_incr_by k (wrap64 (- d))).
(** cachestring.go:274-295 *)
Definition l_m_incrbyfloat (k : gostr) (f : f64) : lprog (gret f64) :=
  l_locked (
    do r <- l_data_load_or_store k (VFloat f);
    if negb (snd r) then LRet (f, None)
    else match fst r with
         | VFloat x => let s := f64_add x f in l_data_store k (VFloat s);;; LRet (s, None)
         | VInt z => let s := f64_add (f64_of_int z) f in l_data_store k (VFloat s);;; LRet (s, None)
         | _ => LRet (S754_zero false, Some ErrWrongType)
         end).
(** cachestring.go:312-321; the argument is the sequence of pairs in the order the
    Go runtime iterates over the map *)
Fixpoint l_mset_loop (kv : list (gostr * gostr)) : lprog unit :=
  match kv with
  | [] => LRet tt
  | (k, v) :: r => l_data_store k (try_int64 v);;; l_mset_loop r
  end.
Definition l_m_mset (kv : list (gostr * gostr)) : lprog gostr := l_mset_loop kv;;; LRet (bs "OK").
(** cachestring.go:323-336 *)
Fixpoint l_msetnx_loop (kv : list (gostr * gostr)) (n : Z) : lprog Z :=
  match kv with
  | [] => LRet n
  | (k, v) :: r => do x <- l_data_load_or_store k (try_int64 v);
                   l_msetnx_loop r (if snd x then n else n + 1)
  end.
Definition l_m_msetnx (kv : list (gostr * gostr)) : lprog Z := l_msetnx_loop kv 0.
Fixpoint l_mget_loop (ks : list gostr) : lprog (list slot) :=
  match ks with
  | [] => LRet []
  | k :: r => do v <- l_c_get k; do rest <- l_mget_loop r; LRet (slot_of v :: rest)
  end.
Definition l_m_mget (ks : list gostr) : lprog (list slot) := l_mget_loop ks.
(** cachedb.go:3-15 *)
Definition l_m_del (k : gostr) : lprog Z :=
  l_locked (do v <- l_c_get k;
          l_data_delete k;;; l_exp_delete k;;;
          LRet match v with Some _ => 1 | None => 0 end).
(** cachedb.go:17-22 *)
Definition l_m_flush : lprog unit := l_locked (l_data_reset;;; l_exp_reset).
(** cachedb.go:24-32 *)
Fixpoint l_exists_loop (ks : list gostr) (n : Z) : lprog Z :=
  match ks with
  | [] => LRet n
  | k :: r => do v <- l_data_load k; l_exists_loop r (match v with Some _ => n + 1 | None => n end)
  end.
Definition l_m_exists (ks : list gostr) : lprog Z := l_exists_loop ks 0.
(** cachedb.go:34-46: the switch tests the struct type hashEntry, but only pointers
    *hashEntry are ever stored, so the first case never matches. *)
Definition l_m_type (k : gostr) : lprog gostr :=
  do v <- l_c_get k;
  LRet match v with
      | None => bs "none"
      | Some _ => bs "string"
      end.
(** cachecron.go:9-21: the callback, for one entry of dataDict.  No value is a time.Time,
    so [ok] is false and [expire] is the zero time. *)
Fixpoint l_cron_loop (ks : list gostr) : lprog unit :=
  match ks with
  | [] => LRet tt
  | k :: r =>
    do v <- l_data_load k;
    (if v then
       l_exp_delete k;;;
       do t <- l_p_now;
       (if zero_time <? t then l_exp_delete k;;; l_data_delete k else LRet tt)
     else LRet tt);;;
    l_cron_loop r
  end.
(** cachecron.go:7-24: one tick of the ticker *)
Definition l_m_cron_tick : lprog unit := l_locked (do ks <- l_data_keys; l_cron_loop ks).
(** cachehash.go:13-22 hashEntry.get *)
Definition l_he_get (l : positive) (f : gostr) : lprog (option gostr) :=
  do v <- l_h_load l f;
  LRet match v with
      | None => None
      | Some x => Some (match fmt_string x with Some s => s | None => [] end)
      end.
(** cachehash.go:24-34 hashEntry.set *)
Definition l_he_set (l : positive) (f v : gostr) : lprog Z :=
  do r <- l_h_load_or_store l f (try_int64 v);
  (if snd r then l_h_store l f (try_int64 v) else LRet tt);;;
  let n := if snd r then 0 else 1 in
  do len <- l_h_get_len l;
  l_h_set_len l (wrap64 (len + n));;;
  LRet n.
Definition l_get_hash_entry (k : gostr) : lprog hres :=
  do v <- l_c_get k;
  LRet match v with
      | None => HNil
      | Some (VHash l) => HEntry l
      | Some _ => HWrong
      end.
(** newHash() and c.dataDict.Store(key, he) (cachehash.go:59-62 and repeated) *)
Definition l_new_hash (k : gostr) : lprog positive :=
  do l <- l_h_alloc; l_data_store k (VHash l);;; LRet l.
Definition l_get_or_new (k : gostr) (h : hres) : lprog positive :=
  match h with HEntry l => LRet l | _ => l_new_hash k end.
(** cachehash.go:53-65 *)
Definition l_m_hset (k f v : gostr) : lprog (gret Z) :=
  do h <- l_get_hash_entry k;
  match h with
  | HWrong => LRet (0, Some ErrWrongType)
  | _ => do l <- l_get_or_new k h; do n <- l_he_set l f v; LRet (n, None)
  end.
(** cachehash.go:68-85 *)
Definition l_m_hsetnx (k f v : gostr) : lprog (gret Z) :=
  do h <- l_get_hash_entry k;
  match h with
  | HWrong => LRet (0, Some ErrWrongType)
  | _ => do l <- l_get_or_new k h;
         do r <- l_h_load_or_store l f (VStr v);
         if snd r then LRet (0, None)
         else do len <- l_h_get_len l; l_h_set_len l (wrap64 (len + 1));;; LRet (1, None)
  end.
(** cachehash.go:88-105 *)
Definition l_m_hexists (k f : gostr) : lprog (gret Z) :=
  do h <- l_get_hash_entry k;
  match h with
  | HWrong => LRet (0, Some ErrWrongType)
  | HNil => LRet (0, None)
  | HEntry l => do v <- l_he_get l f;
                let n := match v with Some _ => 1 | None => 0 end in
                do len <- l_h_get_len l;
                l_h_set_len l (wrap64 (len - n));;;
                LRet (n, None)
  end.
(** cachehash.go:118-123 *)
Fixpoint l_hdel_loop (l : positive) (fs : list gostr) (n : Z) : lprog Z :=
  match fs with
  | [] => LRet n
  | f :: r => do v <- l_he_get l f;
              match v with
              | Some _ => l_h_delete l f;;; l_hdel_loop l r (n + 1)
              | None => l_hdel_loop l r n
              end
  end.
(** cachehash.go:108-130 *)
Definition l_m_hdel (k : gostr) (fs : list gostr) : lprog (gret Z) :=
  do h <- l_get_hash_entry k;
  match h with
  | HWrong => LRet (0, Some ErrWrongType)
  | HNil => LRet (0, None)
  | HEntry l => do n <- l_hdel_loop l fs 0;
                (if n =? 0 then LRet tt else do len <- l_h_get_len l; l_h_set_len l (wrap64 (len - n)));;;
                LRet (n, None)
  end.
(** cachehash.go:133-144 *)
Definition l_m_hlen (k : gostr) : lprog (gret Z) :=
  do h <- l_get_hash_entry k;
  match h with
  | HWrong => LRet (0, Some ErrWrongType)
  | HNil => LRet (0, None)
  | HEntry l => do n <- l_h_get_len l; LRet (n, None)
  end.
(** cachehash.go:147-158 *)
Definition l_m_hstrlen (k f : gostr) : lprog (gret Z) :=
  do h <- l_get_hash_entry k;
  match h with
  | HWrong => LRet (0, Some ErrWrongType)
  | HNil => LRet (0, None)
  | HEntry l => do v <- l_he_get l f; LRet (match v with Some s => zlen s | None => 0 end, None)
  end.
(** cachehash.go:160-203; both stores write strconv.Itoa(increment) *)
Definition l_m_hincrby (k f : gostr) (d : Z) : lprog (gret Z) :=
  do h <- l_get_hash_entry k;
  match h with
  | HWrong => LRet (0, Some ErrWrongType)
  | _ => do l <- l_get_or_new k h;
         do v <- l_h_load l f;
         match v with
         | None => do _u <- l_he_set l f (itoa d); LRet (d, None)
         | Some x => match hincr_val x d with
                     | None => LRet (0, Some ErrHashValueIsNotFloat)
                     | Some n => do _u <- l_he_set l f (itoa d); LRet (n, None)
                     end
         end
  end.
(** cachehash.go:207-250 *)
Definition l_m_hincrbyfloat (k f : gostr) (d : f64) : lprog (gret f64) :=
  do h <- l_get_hash_entry k;
  match h with
  | HWrong => LRet (S754_zero false, Some ErrWrongType)
  | _ => do l <- l_get_or_new k h;
         do v <- l_h_load l f;
         match v with
         | None => do _u <- l_he_set l f (format_float d); LRet (d, None)
         | Some x => match hincrf_val x d with
                     | None => LRet (S754_zero false, Some ErrHashValueIsNotFloat)
                     | Some n => do _u <- l_he_set l f (format_float d); LRet (n, None)
                     end
         end
  end.
(** cachehash.go:263-265, pairs in iteration order *)
Fixpoint l_hmset_loop (l : positive) (fv : list (gostr * gostr)) (n : Z) : lprog Z :=
  match fv with
  | [] => LRet n
  | (f, v) :: r => do x <- l_he_set l f v; l_hmset_loop l r (n + x)
  end.
(** cachehash.go:252-268 *)
Definition l_m_hmset (k : gostr) (fv : list (gostr * gostr)) : lprog (gret Z) :=
  do h <- l_get_hash_entry k;
  match h with
  | HWrong => LRet (0, Some ErrWrongType)
  | _ => do l <- l_get_or_new k h; do n <- l_hmset_loop l fv 0; LRet (n, None)
  end.
(** cachehash.go:278-289 *)
Fixpoint l_hmget_loop (h : hres) (fs : list gostr) : lprog (list slot) :=
  match fs with
  | [] => LRet []
  | f :: r => do s <- match h with
                      | HEntry l => do v <- l_he_get l f;
                                    LRet match v with Some s => SlotStr s | None => SlotErr ErrKeyNil end
                      | _ => LRet (SlotErr ErrKeyNil)
                      end;
              do rest <- l_hmget_loop h r; LRet (s :: rest)
  end.
(** cachehash.go:271-292 *)
Definition l_m_hmget (k : gostr) (fs : list gostr) : lprog (gret (list slot)) :=
  do h <- l_get_hash_entry k;
  match h with
  | HWrong => LRet ([], Some ErrWrongType)
  | _ => do s <- l_hmget_loop h fs; LRet (s, None)
  end.
(** cachehash.go:295-309; on an absent key [he] is nil and he.Range dereferences it *)
Definition l_m_hkeys (k : gostr) : lprog (gret (list gostr)) :=
  do h <- l_get_hash_entry k;
  match h with
  | HWrong => LRet ([], Some ErrWrongType)
  | HNil => l_panic
  | HEntry l => do es <- l_h_range l; LRet (map fst es, None)
  end.
(** cachehash.go:312-326: only values whose dynamic type is string are kept *)
Definition l_m_hvals (k : gostr) : lprog (gret (list gostr)) :=
  do h <- l_get_hash_entry k;
  match h with
  | HWrong => LRet ([], Some ErrWrongType)
  | HNil => l_panic
  | HEntry l => do es <- l_h_range l;
                LRet (omap (fun e => match snd e with VStr s => Some s | _ => None end) es, None)
  end.
Definition l_m_hgetall (k : gostr) : lprog (gret (option (gmap gostr gostr))) :=
  do h <- l_get_hash_entry k;
  match h with
  | HWrong => LRet (None, Some ErrWrongType)
  | HNil => l_panic
  | HEntry l => do es <- l_h_range l;
                if existsb hgetall_bad es then l_panic else LRet (None, None)
  end.
(** cachehash.go:348-367 *)
Definition l_m_hget (k f : gostr) : lprog (gret gostr) :=
  do h <- l_get_hash_entry k;
  match h with
  | HWrong => LRet ([], Some ErrWrongType)
  | HNil => LRet ([], Some ErrKeyNil)
  | HEntry l => do v <- l_he_get l f;
                LRet match v with None => ([], Some ErrKeyNil) | Some s => (s, None) end
  end.
(** the calls of the API (the type [call] of CacheModel.v) *)
Definition l_pmap {A B} (f : A -> B) (p : lprog A) : lprog B := do x <- p; LRet (f x).
Definition l_call (c : call) : lprog reply :=
  match c with
  | CSet k v => l_pmap RStr (l_m_set k v)
  | CSetNX k v => l_pmap RInt (l_m_setnx k v)
  | CSetEX k v n => l_pmap RStr (l_m_setex k v n)
  | CPSetEX k v n => l_pmap RStr (l_m_psetex k v n)
  | CGet k => l_pmap RStr (l_m_get k)
  | CGetSet k v => l_pmap RStr (l_m_getset k v)
  | CStrLen k => l_pmap RInt (l_m_strlen k)
  | CAppend k v => l_pmap RInt (l_m_append k v)
  | CSetRange k p r => l_pmap RInt (l_m_setrange k p r)
  | CGetRange k a b => l_pmap RStr (l_m_getrange k a b)
  | CIncr k => l_pmap RInt (l_m_incr k)
  | CIncrBy k d => l_pmap RInt (l_m_incrby k d)
  | CIncrByFloat k f => l_pmap RFloat (l_m_incrbyfloat k f)
  | CDecr k => l_pmap RInt (l_m_decr k)
  | CDecrBy k d => l_pmap RInt (l_m_decrby k d)
  | CMSet kv => l_pmap (fun s => RStr (noerr s)) (l_m_mset kv)
  | CMSetNX kv => l_pmap (fun n => RInt (noerr n)) (l_m_msetnx kv)
  | CMGet ks => l_pmap (fun l => RSlots (noerr l)) (l_m_mget ks)
  | CDel k => l_pmap (fun n => RInt (noerr n)) (l_m_del k)
  | CFlush => l_pmap (fun _ => RUnit) l_m_flush
  | CExists ks => l_pmap (fun n => RInt (noerr n)) (l_m_exists ks)
  | CType k => l_pmap (fun s => RStr (noerr s)) (l_m_type k)
  | CCron => l_pmap (fun _ => RUnit) l_m_cron_tick
  | CHSet k f v => l_pmap RInt (l_m_hset k f v)
  | CHSetNX k f v => l_pmap RInt (l_m_hsetnx k f v)
  | CHExists k f => l_pmap RInt (l_m_hexists k f)
  | CHDel k fs => l_pmap RInt (l_m_hdel k fs)
  | CHLen k => l_pmap RInt (l_m_hlen k)
  | CHStrLen k f => l_pmap RInt (l_m_hstrlen k f)
  | CHIncrBy k f d => l_pmap RInt (l_m_hincrby k f d)
  | CHIncrByFloat k f d => l_pmap RFloat (l_m_hincrbyfloat k f d)
  | CHMSet k fv => l_pmap RInt (l_m_hmset k fv)
  | CHMGet k fs => l_pmap RSlots (l_m_hmget k fs)
  | CHKeys k => l_pmap RList (l_m_hkeys k)
  | CHVals k => l_pmap RList (l_m_hvals k)
  | CHGetAll k => l_pmap RMap (l_m_hgetall k)
  | CHGet k f => l_pmap RStr (l_m_hget k f)
  end.


(** ** The labels change nothing *)
Fixpoint tagged {R} (q : lprog R) (p : prog R) : Prop :=
  match q, p with
  | LRet a, Ret b => a = b
  | LStep _ f, Step g => forall w, match f w, g w with
                                   | Go w1 q1, Go w2 p1 => w1 = w2 /\ tagged q1 p1
                                   | Blocked, Blocked | Panic, Panic => True
                                   | _, _ => False
                                   end
  | _, _ => False
  end.
Lemma lprog_ind' {R} (P : lprog R -> Prop) :
  (forall r, P (LRet r)) ->
  (forall b f, (forall w w' p, f w = Go w' p -> P p) -> P (LStep b f)) ->
  forall p, P p.
Proof.
  intros HR HS. fix IH 1. intros [r|b f]; [apply HR|]. apply HS. intros w w' p E.
  pose proof (match f w as x return match x with Go _ q => P q | _ => True end with
              | Go _ q => IH q | Blocked => I | Panic => I end) as H.
  rewrite E in H. exact H.
Qed.
Lemma tagged_tag {A} b (p : prog A) : tagged (tag b p) p.
Proof.
  induction p as [r|f IH] using prog_ind'; [reflexivity|]. intros w. cbn. destruct (f w) as [w' p'| |] eqn:E; [|exact I|exact I].
  split; [reflexivity|]. exact (IH _ _ _ E).
Qed.
Lemma tagged_bind {A B} (q : lprog A) : forall (p : prog A) (l : A -> lprog B) (k : A -> prog B),
  tagged q p -> (forall x, tagged (l x) (k x)) -> tagged (lbind q l) (pbind p k).
Proof.
  induction q as [r|b f IH] using lprog_ind'; intros [r'|g] l k H Hk; cbn [tagged] in H; try contradiction.
  - subst r'. apply Hk.
  - intros w. specialize (H w). destruct (f w) as [w1 q1| |] eqn:E, (g w) as [w2 p1| |]; try contradiction; try exact I.
    destruct H as [-> H]. split; [reflexivity|]. eapply IH; eauto.
Qed.

Lemma t_panic {A} : tagged (@l_panic A) panic. Proof. apply tagged_tag. Qed.
Lemma t_now : tagged l_p_now p_now. Proof. apply tagged_tag. Qed.
Lemma t_dl k : tagged (l_data_load k) (data_load k). Proof. apply tagged_tag. Qed.
Lemma t_ds k v : tagged (l_data_store k v) (data_store k v). Proof. apply tagged_tag. Qed.
Lemma t_dd k : tagged (l_data_delete k) (data_delete k). Proof. apply tagged_tag. Qed.
Lemma t_dls k v : tagged (l_data_load_or_store k v) (data_load_or_store k v). Proof. apply tagged_tag. Qed.
Lemma t_dk : tagged l_data_keys data_keys. Proof. apply tagged_tag. Qed.
Lemma t_el k : tagged (l_exp_load k) (exp_load k). Proof. apply tagged_tag. Qed.
Lemma t_es k v : tagged (l_exp_store k v) (exp_store k v). Proof. apply tagged_tag. Qed.
Lemma t_ed k : tagged (l_exp_delete k) (exp_delete k). Proof. apply tagged_tag. Qed.
Lemma t_dr : tagged l_data_reset data_reset. Proof. apply tagged_tag. Qed.
Lemma t_er : tagged l_exp_reset exp_reset. Proof. apply tagged_tag. Qed.
Lemma t_ha : tagged l_h_alloc h_alloc. Proof. apply tagged_tag. Qed.
Lemma t_hl l f : tagged (l_h_load l f) (h_load l f). Proof. apply tagged_tag. Qed.
Lemma t_hs l f v : tagged (l_h_store l f v) (h_store l f v). Proof. apply tagged_tag. Qed.
Lemma t_hd l f : tagged (l_h_delete l f) (h_delete l f). Proof. apply tagged_tag. Qed.
Lemma t_hls l f v : tagged (l_h_load_or_store l f v) (h_load_or_store l f v). Proof. apply tagged_tag. Qed.
Lemma t_hgl l : tagged (l_h_get_len l) (h_get_len l). Proof. apply tagged_tag. Qed.
Lemma t_hsl l n : tagged (l_h_set_len l n) (h_set_len l n). Proof. apply tagged_tag. Qed.
Lemma t_hv l ks : tagged (l_h_visit l ks) (h_visit l ks).
Proof. induction ks as [|k r IH]; [reflexivity|]. apply tagged_bind; [apply t_hl|intros v]. apply tagged_bind; [exact IH|intros es; reflexivity]. Qed.
Lemma t_hr l : tagged (l_h_range l) (h_range l). Proof. apply tagged_bind; [apply tagged_tag|intros ks; apply t_hv]. Qed.
Lemma t_locked {A} (q : lprog A) p : tagged q p -> tagged (l_locked q) (locked p).
Proof. intros H. apply tagged_bind; [apply tagged_tag|intros _]. apply tagged_bind; [exact H|intros r]. apply tagged_bind; [apply tagged_tag|reflexivity]. Qed.
Lemma t_rlocked {A} (q : lprog A) p : tagged q p -> tagged (l_rlocked q) (rlocked p).
Proof. intros H. apply tagged_bind; [apply tagged_tag|intros _]. apply tagged_bind; [exact H|intros r]. apply tagged_bind; [apply tagged_tag|reflexivity]. Qed.
Local Hint Resolve t_panic t_now t_dl t_ds t_dd t_dls t_dk t_el t_es t_ed t_dr t_er t_ha t_hl t_hs t_hd t_hls t_hgl t_hsl t_hr : tag.
Ltac tg2 := repeat first
  [ solve [auto 2 with tag]
  | reflexivity
  | match goal with
    | |- tagged (l_pmap _ _) (pmap _ _) => apply tagged_bind; [|reflexivity]
    | |- tagged (lbind _ _) (pbind _ _) => apply tagged_bind; [|intros ?]
    | |- tagged (l_locked _) (locked _) => apply t_locked
    | |- tagged (l_rlocked _) (rlocked _) => apply t_rlocked
    | |- tagged (match ?x with _ => _ end) _ => destruct x eqn:?
    end ].
Lemma t_expired k : tagged (l_expired k) (expired k). Proof. unfold l_expired, expired. tg2. Qed.
Lemma t_expires k d : tagged (l_expires k d) (expires k d). Proof. unfold l_expires, expires. tg2. Qed.
Local Hint Resolve t_expired t_expires : tag.
Lemma t_get k : tagged (l_c_get k) (c_get k). Proof. unfold l_c_get, c_get. tg2. Qed.
Lemma t_live k : tagged (l_load_live k) (load_live k). Proof. unfold l_load_live, load_live. tg2. Qed.
Lemma t_incr k d : tagged (l_incr_by k d) (incr_by k d). Proof. unfold l_incr_by, incr_by. tg2. Qed.
Local Hint Resolve t_get t_live t_incr : tag.
Lemma t_mset kv : tagged (l_mset_loop kv) (mset_loop kv).
Proof. induction kv as [|[k v] r IH]; cbn [l_mset_loop mset_loop]; tg2. Qed.
Lemma t_msetnx kv : forall n, tagged (l_msetnx_loop kv n) (msetnx_loop kv n).
Proof. induction kv as [|[k v] r IH]; intros n; cbn [l_msetnx_loop msetnx_loop]; tg2. Qed.
Lemma t_mget ks : tagged (l_mget_loop ks) (mget_loop ks).
Proof. induction ks as [|k r IH]; cbn [l_mget_loop mget_loop]; tg2. Qed.
Lemma t_exists ks : forall n, tagged (l_exists_loop ks n) (exists_loop ks n).
Proof. induction ks as [|k r IH]; intros n; cbn [l_exists_loop exists_loop]; tg2. Qed.
Lemma t_cron ks : tagged (l_cron_loop ks) (cron_loop ks).
Proof. induction ks as [|k r IH]; cbn [l_cron_loop cron_loop]; tg2. Qed.
Lemma t_hget l f : tagged (l_he_get l f) (he_get l f). Proof. unfold l_he_get, he_get. tg2. Qed.
Lemma t_hset l f v : tagged (l_he_set l f v) (he_set l f v). Proof. unfold l_he_set, he_set. cbv zeta. tg2. Qed.
Lemma t_ghe k : tagged (l_get_hash_entry k) (get_hash_entry k). Proof. unfold l_get_hash_entry, get_hash_entry. tg2. Qed.
Lemma t_gon k h : tagged (l_get_or_new k h) (get_or_new k h). Proof. unfold l_get_or_new, get_or_new, l_new_hash, new_hash. tg2. Qed.
Local Hint Resolve t_mset t_msetnx t_mget t_exists t_cron t_hget t_hset t_ghe t_gon : tag.
Lemma t_hdl l fs : forall n, tagged (l_hdel_loop l fs n) (hdel_loop l fs n).
Proof. induction fs as [|k r IH]; intros n; cbn [l_hdel_loop hdel_loop]; tg2. Qed.
Lemma t_hms l fv : forall n, tagged (l_hmset_loop l fv n) (hmset_loop l fv n).
Proof. induction fv as [|[k v] r IH]; intros n; cbn [l_hmset_loop hmset_loop]; tg2. Qed.
Lemma t_hmg h fs : tagged (l_hmget_loop h fs) (hmget_loop h fs).
Proof. induction fs as [|k r IH]; cbn [l_hmget_loop hmget_loop]; tg2. Qed.
Local Hint Resolve t_hdl t_hms t_hmg : tag.
Ltac lunf := unfold l_m_set, l_m_setnx, l_m_setex, l_m_psetex, l_m_get, l_m_getset, l_m_strlen, l_m_append, l_m_setrange, l_m_getrange,
  l_m_incr, l_m_decr, l_m_decrby, l_m_incrby, l_m_incrbyfloat, l_m_mset, l_m_msetnx, l_m_mget, l_m_del, l_m_flush, l_m_exists, l_m_type,
  l_m_cron_tick, l_m_hset, l_m_hsetnx, l_m_hexists, l_m_hdel, l_m_hlen, l_m_hstrlen, l_m_hincrby, l_m_hincrbyfloat, l_m_hmset, l_m_hmget,
  l_m_hkeys, l_m_hvals, l_m_hgetall, l_m_hget in *.
Ltac munf := unfold m_set, m_setnx, m_setex, m_psetex, m_get, m_getset, m_strlen, m_append, m_setrange, m_getrange,
  m_incr, m_decr, m_decrby, m_incrby, m_incrbyfloat, m_mset, m_msetnx, m_mget, m_del, m_flush, m_exists, m_type,
  m_cron_tick, m_hset, m_hsetnx, m_hexists, m_hdel, m_hlen, m_hstrlen, m_hincrby, m_hincrbyfloat, m_hmset, m_hmget,
  m_hkeys, m_hvals, m_hgetall, m_hget in *.
Lemma tagged_call c : tagged (l_call c) (call_prog c).
Proof. destruct c; cbn [l_call call_prog]; lunf; munf; cbv zeta; tg2. Qed.

(** ** Goroutines, as in CacheConc.v *)
Record lconf := LConf { lc_w : world; lc_th : gmap nat (lprog reply) }.
Definition lstart (w : world) : lconf := LConf w ∅.
Definition lstep (a : act) (c : lconf) : option (lconf * list event) :=
  match a with
  | AInv i cl =>
    match lc_th c !! i with
    | Some _ => None
    | None => Some (LConf (lc_w c) (<[i := l_call cl]> (lc_th c)), [EInv i cl])
    end
  | ARun i =>
    match lc_th c !! i with
    | Some (LStep _ f) => match f (lc_w c) with
                          | Go w' p' => Some (LConf w' (<[i := p']> (lc_th c)), [])
                          | _ => None
                          end
    | _ => None
    end
  | ARet i =>
    match lc_th c !! i with
    | Some (LRet r) => Some (LConf (lc_w c) (delete i (lc_th c)), [ERet i r])
    | _ => None
    end
  | ATick t => if w_now (lc_w c) <=? t then Some (LConf (set_now (lc_w c) t) (lc_th c), [ETick t]) else None
  end.
Fixpoint lexec (s : list act) (c : lconf) : option (lconf * list event) :=
  match s with
  | [] => Some (c, [])
  | a :: r => match lstep a c with
              | None => None
              | Some (c1, e) => match lexec r c1 with
                                | None => None
                                | Some (c2, es) => Some (c2, e ++ es)
                                end
              end
  end.

Definition agree (lc : lconf) (c : conf) : Prop :=
  lc_w lc = c_w c /\ forall i, match lc_th lc !! i, c_th c !! i with
                               | Some q, Some p => tagged q p
                               | None, None => True
                               | _, _ => False
                               end.
Lemma agree_step a lc c : agree lc c ->
  match lstep a lc, cstep a c with
  | Some (lc', e), Some (c', e') => e = e' /\ agree lc' c'
  | None, None => True
  | _, _ => False
  end.
Proof.
  destruct lc as [w lt], c as [w' t]. intros [E H]. cbn in E, H. subst w'. destruct a as [i cl|i|i|tk]; cbn.
  - pose proof (H i) as Hi. destruct (lt !! i), (t !! i); try contradiction; [exact I|]. split; [reflexivity|]. split; [reflexivity|].
    intros j. cbn. destruct (decide (j = i)) as [->|N]; [rewrite !lookup_insert; apply tagged_call|rewrite !lookup_insert_ne by congruence; apply H].
  - pose proof (H i) as Hi. destruct (lt !! i) as [[r|b f]|], (t !! i) as [[r'|g]|]; cbn [tagged] in Hi; try contradiction; try exact I.
    specialize (Hi w). destruct (f w) as [w1 q1| |], (g w) as [w2 p1| |]; try contradiction; try exact I. destruct Hi as [-> Hi].
    split; [reflexivity|]. split; [reflexivity|].
    intros j. cbn. destruct (decide (j = i)) as [->|N]; [rewrite !lookup_insert; exact Hi|rewrite !lookup_insert_ne by congruence; apply H].
  - pose proof (H i) as Hi. destruct (lt !! i) as [[r|b f]|], (t !! i) as [[r'|g]|]; cbn [tagged] in Hi; try contradiction; try exact I. subst r'.
    split; [reflexivity|]. split; [reflexivity|].
    intros j. cbn. destruct (decide (j = i)) as [->|N]; [rewrite !lookup_delete; exact I|rewrite !lookup_delete_ne by congruence; apply H].
  - destruct (_ <=? _); [|exact I]. split; [reflexivity|]. split; [reflexivity|]. exact H.
Qed.
(** The labelled goroutines do what those of CacheConc.v do: the same schedules, the same events, the same caches. *)
Lemma agree_exec s : forall lc c, agree lc c ->
  match lexec s lc, cexec s c with
  | Some (lc', e), Some (c', e') => e = e' /\ agree lc' c'
  | None, None => True
  | _, _ => False
  end.
Proof.
  induction s as [|a r IH]; intros lc c H; [split; [reflexivity|exact H]|].
  cbn [lexec cexec]. pose proof (agree_step a lc c H) as Hs. destruct (lstep a lc) as [[lc1 e1]|], (cstep a c) as [[c1 e1']|]; try contradiction; [|exact I].
  destruct Hs as [<- Hs]. specialize (IH _ _ Hs). destruct (lexec r lc1) as [[lc2 e2]|], (cexec r c1) as [[c2 e2']|]; try contradiction; [|exact I].
  destruct IH as [<- IH]. split; [reflexivity|exact IH].
Qed.
Lemma agree_start w : agree (lstart w) (start w).
Proof. split; [reflexivity|]. intros i. cbn. rewrite !lookup_empty. exact I. Qed.

(** ** Which calls may touch what *)
(** the methods that take c.lock (cachestring.go:8-310, cachedb.go:3-22, cachecron.go:7-24); the others take no lock *)
Definition takes_lock (c : call) : bool :=
  match c with
  | CSet _ _ | CSetNX _ _ | CSetEX _ _ _ | CPSetEX _ _ _ | CGet _ | CGetSet _ _ | CStrLen _ | CAppend _ _
  | CSetRange _ _ _ | CGetRange _ _ _ | CIncr _ | CIncrBy _ _ | CIncrByFloat _ _ | CDecr _ | CDecrBy _ _
  | CDel _ | CFlush | CCron => true
  | _ => false
  end.
(** the calls that use the field [length] of the hash at a key; [true]: they also write it *)
Definition len_use (c : call) : option (gostr * bool) :=
  match c with
  | CHSet k _ _ | CHSetNX k _ _ | CHExists k _ | CHDel k _ | CHIncrBy k _ _ | CHIncrByFloat k _ _ | CHMSet k _ => Some (k, true)
  | CHLen k => Some (k, false)
  | _ => None
  end.

(** ** What a goroutine may be about to touch

    [O l k]: the hash at address [l] belongs to key [k] (no two keys ever share one). *)
Definition inv (w : world) (O : positive -> gostr -> Prop) : Prop :=
  (forall d k l, w_data w = Some d -> d !! k = Some (VHash l) -> O l k) /\
  (forall l k k', O l k -> O l k' -> k = k') /\
  (forall l k, O l k -> (l < w_next w)%positive).
Definition holds (cl : call) (L : positive -> Prop) (O : positive -> gostr -> Prop) : Prop :=
  forall l, L l -> forall k b, len_use cl = Some (k, b) -> O l k.
Definition perm (cl : call) (L : positive -> Prop) (x : access) : Prop :=
  match x with
  | (PLen l, b) => L l /\ exists k b', len_use cl = Some (k, b') /\ (b = true -> b' = true)
  | (_, b) => b = true -> cl = CFlush
  end.
Definition same_lock (w w' : world) : Prop := w_writer w' = w_writer w /\ w_readers w' = w_readers w.
Fixpoint tame {R} (cl : call) (Q : (positive -> Prop) -> R -> Prop) (L : positive -> Prop) (p : lprog R) : Prop :=
  match p with
  | LRet r => Q L r
  | LStep b f => exists a, b = LAcc a /\ (forall x, x ∈ a -> perm cl L x) /\
      forall w O, inv w O -> holds cl L O ->
        match f w with
        | Go w' p' => same_lock w w' /\ exists O' (L' : positive -> Prop), inv w' O' /\ (forall l k, O l k -> O' l k) /\ holds cl L' O' /\
                        (forall l, L l -> L' l) /\ tame cl Q L' p'
        | Panic => True
        | Blocked => False
        end
  end.
Lemma tame_bind {A B} cl Q Q2 (p : lprog A) (k : A -> lprog B) : forall L, tame cl Q L p ->
  (forall (L' : positive -> Prop) r, (forall l, L l -> L' l) -> Q L' r -> tame cl Q2 L' (k r)) -> tame cl Q2 L (lbind p k).
Proof.
  induction p as [r|b f IH] using lprog_ind'; intros L H Hk; [apply Hk; [auto|exact H]|].
  destruct H as (a & -> & Ha & H). exists a. split; [reflexivity|]. split; [exact Ha|]. intros w O Hi Hh. specialize (H w O Hi Hh).
  destruct (f w) as [w' p'| |] eqn:E; [|exact H|exact I]. destruct H as (Hl & O' & L' & H1 & H2 & H3 & H4 & H5).
  split; [exact Hl|]. exists O', L'. split; [exact H1|]. split; [exact H2|]. split; [exact H3|]. split; [exact H4|].
  eapply IH; [exact E|exact H5|]. intros L2 r Hs. apply Hk. auto.
Qed.

Definition tt_any {R} (L : positive -> Prop) (r : R) : Prop := True.
(** an operation that leaves the owners alone *)
Lemma tame_atom {A} cl Q L a (f : world -> ares A) : (forall x, x ∈ a -> perm cl L x) ->
  (forall w O, inv w O -> holds cl L O ->
     match f w with
     | Go w' r => same_lock w w' /\ exists O' (L' : positive -> Prop), inv w' O' /\ (forall l k, O l k -> O' l k) /\ holds cl L' O' /\
                    (forall l, L l -> L' l) /\ Q L' r
     | Panic => True
     | Blocked => False
     end) -> tame cl Q L (tag (LAcc a) (atom f)).
Proof.
  intros Ha H. exists a. split; [reflexivity|]. split; [exact Ha|]. intros w O Hi Hh. specialize (H w O Hi Hh). cbn.
  destruct (f w) as [w' r| |]; [|exact H|exact I]. exact H.
Qed.
Lemma perm_none cl L x : x ∈ @nil access -> perm cl L x.
Proof. intros H. apply elem_of_nil in H as []. Qed.
Lemma perm_rd cl L d x : (forall l, d <> PLen l) -> x ∈ [(d, false)] -> perm cl L x.
Proof. intros N H. apply elem_of_list_singleton in H as ->. destruct d; [discriminate|discriminate|destruct (N l); reflexivity]. Qed.
Lemma inv_data w O w' : inv w O -> w_next w' = w_next w -> (forall d' k l, w_data w' = Some d' -> d' !! k = Some (VHash l) -> O l k) -> inv w' O.
Proof. intros (H1 & H2 & H3) E H. split; [exact H|]. split; [exact H2|]. rewrite E. exact H3. Qed.
Lemma inv_same w O w' : inv w O -> w_next w' = w_next w -> w_data w' = w_data w -> inv w' O.
Proof. intros H E E2. eapply inv_data; [exact H|exact E|]. rewrite E2. apply H. Qed.
Ltac stay O L := split; [split; reflexivity|]; exists O, L; split; [|split; [auto|split; [assumption|split; [auto|]]]].

Definition only (cl : call) (k : gostr) : Prop := forall k' b, len_use cl = Some (k', b) -> k' = k.
Section T.
  Context (cl : call).
  Implicit Types (L : positive -> Prop) (k : gostr).
  Lemma tame_panic {A} Q L : tame (R:=A) cl Q L l_panic.
  Proof. exists []. split; [reflexivity|]. split; [apply perm_none|]. intros; exact I. Qed.
  Lemma tame_now L : tame cl tt_any L l_p_now.
  Proof. apply tame_atom; [apply perm_none|]. intros w O Hi Hh. stay O L; [exact Hi|exact I]. Qed.
  Lemma tame_dl L k : only cl k -> tame cl (fun L' r => forall l, r = Some (VHash l) -> L' l) L (l_data_load k).
  Proof.
    intros Hk. apply tame_atom; [intros x; apply perm_rd; discriminate|]. intros w O Hi Hh. destruct (w_data w) as [d|] eqn:Ed; [|exact I].
    split; [split; reflexivity|]. exists O, (fun l => L l \/ d !! k = Some (VHash l)). split; [exact Hi|]. split; [auto|]. split; [|split; [auto|auto]].
    intros l [Hl|Hl] k' b E; [exact (Hh _ Hl _ _ E)|]. rewrite (Hk _ _ E). destruct Hi as [Hi _]. exact (Hi _ _ _ Ed Hl).
  Qed.
  Definition noptr (v : gval) : Prop := forall l, v <> VHash l.
  Lemma inv_store w O d k v : inv w O -> w_data w = Some d -> noptr v -> inv (set_data w (<[k:=v]> d)) O.
  Proof.
    intros Hi Ed Hv. eapply inv_data; [exact Hi|reflexivity|]. cbn. intros d' k' l [= <-]. destruct Hi as [Hi _]. destruct (decide (k' = k)) as [->|N].
    - rewrite lookup_insert. intros [= E]. destruct (Hv _ E).
    - rewrite lookup_insert_ne by congruence. apply Hi, Ed.
  Qed.
  Lemma tame_ds L k v : noptr v -> tame cl tt_any L (l_data_store k v).
  Proof.
    intros Hv. apply tame_atom; [intros x; apply perm_rd; discriminate|]. intros w O Hi Hh. destruct (w_data w) as [d|] eqn:Ed; [|exact I].
    stay O L; [apply inv_store; assumption|exact I].
  Qed.
  Lemma tame_dsh L k l b : len_use cl = Some (k, b) -> L l -> tame cl (fun L' _ => L' l) L (l_data_store k (VHash l)).
  Proof.
    intros El Hl. apply tame_atom; [intros x; apply perm_rd; discriminate|]. intros w O Hi Hh. destruct (w_data w) as [d|] eqn:Ed; [|exact I].
    stay O L; [|exact Hl]. eapply inv_data; [exact Hi|reflexivity|]. cbn. intros d' k' l' [= <-]. destruct (decide (k' = k)) as [->|N].
    - rewrite lookup_insert. intros [= <-]. exact (Hh _ Hl _ _ El).
    - rewrite lookup_insert_ne by congruence. destruct Hi as [Hi _]. apply Hi, Ed.
  Qed.
  Lemma tame_dd L k : tame cl tt_any L (l_data_delete k).
  Proof.
    apply tame_atom; [intros x; apply perm_rd; discriminate|]. intros w O Hi Hh. destruct (w_data w) as [d|] eqn:Ed; [|exact I].
    stay O L; [|exact I]. eapply inv_data; [exact Hi|reflexivity|]. cbn. intros d' k' l [= <-] E. apply lookup_delete_Some in E as [_ E].
    destruct Hi as [Hi _]. exact (Hi _ _ _ Ed E).
  Qed.
  Lemma tame_dls L k v : noptr v -> tame cl tt_any L (l_data_load_or_store k v).
  Proof.
    intros Hv. apply tame_atom; [intros x; apply perm_rd; discriminate|]. intros w O Hi Hh. destruct (w_data w) as [d|] eqn:Ed; [|exact I].
    destruct (d !! k) eqn:E; stay O L; [exact Hi|exact I|apply inv_store; assumption|exact I].
  Qed.
  Lemma tame_dk L : tame cl tt_any L l_data_keys.
  Proof.
    apply tame_atom; [intros x; apply perm_rd; discriminate|]. intros w O Hi Hh. destruct (w_data w) as [d|] eqn:Ed; [|exact I].
    stay O L; [exact Hi|exact I].
  Qed.
  Lemma tame_el L k : tame cl tt_any L (l_exp_load k).
  Proof.
    apply tame_atom; [intros x; apply perm_rd; discriminate|]. intros w O Hi Hh. destruct (w_exp w) as [d|] eqn:Ed; [|exact I].
    stay O L; [exact Hi|exact I].
  Qed.
  Lemma tame_es L k t : tame cl tt_any L (l_exp_store k t).
  Proof.
    apply tame_atom; [intros x; apply perm_rd; discriminate|]. intros w O Hi Hh. destruct (w_exp w) as [d|] eqn:Ed; [|exact I].
    stay O L; [exact Hi|exact I].
  Qed.
  Lemma tame_ed L k : tame cl tt_any L (l_exp_delete k).
  Proof.
    apply tame_atom; [intros x; apply perm_rd; discriminate|]. intros w O Hi Hh. destruct (w_exp w) as [d|] eqn:Ed; [|exact I].
    stay O L; [exact Hi|exact I].
  Qed.
  Lemma tame_dr L : cl = CFlush -> tame cl tt_any L l_data_reset.
  Proof.
    intros E. apply tame_atom; [intros x H; apply elem_of_list_singleton in H as ->; intros _; exact E|]. intros w O Hi Hh.
    stay O L; [|exact I]. eapply inv_data; [exact Hi|reflexivity|]. cbn. intros d' k' l [= <-] E'. rewrite lookup_empty in E'. discriminate.
  Qed.
  Lemma tame_er L : cl = CFlush -> tame cl tt_any L l_exp_reset.
  Proof.
    intros E. apply tame_atom; [intros x H; apply elem_of_list_singleton in H as ->; intros _; exact E|]. intros w O Hi Hh.
    stay O L; [exact Hi|exact I].
  Qed.
  Lemma tame_ha L k b : len_use cl = Some (k, b) -> tame cl (fun L' l => L' l) L l_h_alloc.
  Proof.
    intros El. apply tame_atom; [apply perm_none|]. intros w O (H1 & H2 & H3) Hh. split; [split; reflexivity|].
    exists (fun l k' => O l k' \/ (l = w_next w /\ k' = k)), (fun l => L l \/ l = w_next w).
    split; [split; [|split]|].
    - cbn. intros d k' l E Ek. left. eauto.
    - intros l k1 k2 [Ha|[-> ->]] [Hb|[Eb ->]]; [eauto| | |reflexivity].
      + exfalso. subst l. apply H3 in Ha. lia.
      + exfalso. apply H3 in Hb. lia.
    - cbn. intros l k' [Ha|[-> _]]; [apply H3 in Ha|]; lia.
    - split; [auto|]. split; [|split; auto]. intros l [Hl| ->] k' b' E; [left; eauto|right]. rewrite El in E. injection E as -> ->. auto.
  Qed.
  Lemma tame_hat {A} L l (a : list access) (g : hobj -> hobj * A) : (forall x, x ∈ a -> perm cl L x) -> tame cl tt_any L (tag (LAcc a) (h_atom l g)).
  Proof.
    intros Ha. apply tame_atom; [exact Ha|]. intros w O Hi Hh. destruct (w_heap w !! l) as [o|]; [|exact I]. destruct (g o) as [o' x].
    stay O L; [exact Hi|exact I].
  Qed.
  Lemma tame_hl L l f : tame cl tt_any L (l_h_load l f). Proof. apply tame_hat, perm_none. Qed.
  Lemma tame_hs L l f v : tame cl tt_any L (l_h_store l f v). Proof. apply tame_hat, perm_none. Qed.
  Lemma tame_hd L l f : tame cl tt_any L (l_h_delete l f). Proof. apply tame_hat, perm_none. Qed.
  Lemma tame_hls L l f v : tame cl tt_any L (l_h_load_or_store l f v). Proof. apply tame_hat, perm_none. Qed.
  Lemma tame_hk L l : tame cl tt_any L (l_h_keys l). Proof. apply tame_hat, perm_none. Qed.
  Lemma tame_hgl L l k b : len_use cl = Some (k, b) -> L l -> tame cl tt_any L (l_h_get_len l).
  Proof. intros E H. apply tame_hat. intros x Hx. apply elem_of_list_singleton in Hx as ->. split; [exact H|]. exists k, b. split; [exact E|discriminate]. Qed.
  Lemma tame_hsl L l k n : len_use cl = Some (k, true) -> L l -> tame cl tt_any L (l_h_set_len l n).
  Proof. intros E H. apply tame_hat. intros x Hx. apply elem_of_list_singleton in Hx as ->. split; [exact H|]. exists k, true. split; [exact E|auto]. Qed.
End T.

Ltac tb := eapply tame_bind; [|intros ?L ?r ?Hsub ?HQ; cbv beta in *].
Lemma scal_try s : noptr (try_int64 s).
Proof. intros l. unfold try_int64. destruct (atoi s); [discriminate|]. destruct (parse_float s); discriminate. Qed.
Lemma scal_incr v d x n : incr_val v d = Some (x, n) -> noptr x.
Proof. intros E l ->. destruct v; discriminate E. Qed.
Ltac scal := first [apply scal_try | intros ?; discriminate | eapply scal_incr; eassumption].
Ltac tm := repeat first
  [ exact I
  | match goal with
    | |- tame _ _ _ (lbind _ _) => tb
    | |- tame _ tt_any _ (LRet _) => exact I
    | |- tame _ _ _ l_panic => apply tame_panic
    | |- tame _ _ _ l_p_now => apply tame_now
    | |- tame _ _ _ (l_data_load _) => apply tame_dl; solve [assumption | intros ? ?; discriminate]
    | |- tame _ _ _ (l_data_store _ _) => apply tame_ds; scal
    | |- tame _ _ _ (l_data_delete _) => apply tame_dd
    | |- tame _ _ _ (l_data_load_or_store _ _) => apply tame_dls; scal
    | |- tame _ _ _ l_data_keys => apply tame_dk
    | |- tame _ _ _ (l_exp_load _) => apply tame_el
    | |- tame _ _ _ (l_exp_store _ _) => apply tame_es
    | |- tame _ _ _ (l_exp_delete _) => apply tame_ed
    | |- tame _ _ _ (l_h_load _ _) => apply tame_hl
    | |- tame _ _ _ (l_h_store _ _ _) => apply tame_hs
    | |- tame _ _ _ (l_h_delete _ _) => apply tame_hd
    | |- tame _ _ _ (l_h_load_or_store _ _ _) => apply tame_hls
    | |- tame _ _ _ (l_h_keys _) => apply tame_hk
    | |- tame _ _ _ (match ?x with _ => _ end) => destruct x eqn:?
    end ].
Lemma tame_expired cl L k : tame cl tt_any L (l_expired k).
Proof. unfold l_expired. tm. Qed.
Lemma tame_expires cl L k d : tame cl tt_any L (l_expires k d).
Proof. unfold l_expires. tm. Qed.
Definition hpost (L : positive -> Prop) (r : option gval) : Prop := forall l, r = Some (VHash l) -> L l.
Lemma tame_get cl L k : only cl k -> tame cl hpost L (l_c_get k).
Proof.
  intros Hk. unfold l_c_get. eapply tame_bind; [apply tame_dl, Hk|]. intros L' [x|] Hs HQ; [|intros l; discriminate].
  eapply tame_bind; [apply tame_expired|]. intros L2 e Hs2 _. intros l E. destruct e; [discriminate|]. apply Hs2, HQ, E.
Qed.
Lemma tame_live cl L k : only cl k -> tame cl tt_any L (l_load_live k).
Proof. intros Hk. unfold l_load_live. tm. apply tame_expired. Qed.
Lemma tame_incrby cl L k d : tame cl tt_any L (l_incr_by k d).
Proof. unfold l_incr_by. tm. Qed.
Lemma tame_ghe cl L k : only cl k -> tame cl (fun L' h => forall l, h = HEntry l -> L' l) L (l_get_hash_entry k).
Proof.
  intros Hk. unfold l_get_hash_entry. eapply tame_bind; [apply tame_get, Hk|]. intros L' v Hs HQ l E. apply HQ. destruct v as [[]|]; try discriminate E. congruence.
Qed.
Lemma tame_gon cl (L : positive -> Prop) k b h : len_use cl = Some (k, b) -> (forall l, h = HEntry l -> L l) -> tame cl (fun L' l => L' l) L (l_get_or_new k h).
Proof.
  intros El Hh. unfold l_get_or_new.
  assert (Hn : tame cl (fun L' l => L' l) L (l_new_hash k)).
  { unfold l_new_hash. eapply tame_bind; [eapply tame_ha, El|]. intros L1 l Hs Hl. cbv beta in Hl. eapply tame_bind; [eapply tame_dsh; eassumption|].
    intros L2 u Hs2 Hl2. exact Hl2. }
  destruct h; [exact Hn|exact (Hh _ eq_refl)|exact Hn].
Qed.
Lemma tame_heget cl L l f : tame cl tt_any L (l_he_get l f).
Proof. unfold l_he_get. tm. Qed.
Lemma tame_heset cl (L : positive -> Prop) k l f v : len_use cl = Some (k, true) -> L l -> tame cl (fun L' _ => L' l) L (l_he_set l f v).
Proof.
  intros El Hl. unfold l_he_set. cbv zeta. eapply tame_bind; [apply tame_hls|]. intros L1 r S1 _.
  eapply (tame_bind _ tt_any); [destruct (snd r); [apply tame_hs|exact I]|]. intros L2 u S2 _. eapply tame_bind; [eapply tame_hgl; [exact El|auto]|].
  intros L3 n S3 _. eapply tame_bind; [eapply tame_hsl; [exact El|auto]|]. intros L4 n' S4 _. cbn. auto.
Qed.
Lemma tame_weak {R} cl (Q Q' : (positive -> Prop) -> R -> Prop) L p : (forall L' r, Q L' r -> Q' L' r) -> tame cl Q L p -> tame cl Q' L p.
Proof.
  intros HQ. revert L. induction p as [r|b f IH] using lprog_ind'; intros L H; [apply HQ, H|].
  destruct H as (a & Hb & Ha & H). exists a. split; [exact Hb|]. split; [exact Ha|]. intros w O Hi Hh. specialize (H w O Hi Hh).
  destruct (f w) as [w' p'| |] eqn:E; [|exact H|exact I]. destruct H as (Hl & O' & L' & H1 & H2 & H3 & H4 & H5).
  split; [exact Hl|]. exists O', L'. eauto 10.
Qed.
Lemma tame_hrange cl L l : tame cl tt_any L (l_h_range l).
Proof.
  unfold l_h_range. tm. clear. revert L0. induction r as [|k r IH]; intros L; [exact I|]. cbn [l_h_visit]. tm. apply IH.
Qed.
Lemma only_none cl k : len_use cl = None -> only cl k.
Proof. intros E k' b. rewrite E. discriminate. Qed.

(** ** Goroutines *)
Definition lfin {A} (b : lprog A) (g : A -> reply) : lprog reply :=
  lbind (lbind b (fun r => lbind l_p_unlock (fun _ => LRet r))) (fun x => LRet (g x)).
Definition lfinr {A} (b : lprog A) (g : A -> reply) : lprog reply :=
  lbind (lbind b (fun r => lbind l_p_runlock (fun _ => LRet r))) (fun x => LRet (g x)).

Ltac tmc := repeat first
  [ progress cbv zeta
  | progress tm
  | match goal with
    | |- tame _ _ _ (l_expired _) => apply tame_expired
    | |- tame _ _ _ (l_expires _ _) => apply tame_expires
    | |- tame _ _ _ (l_c_get _) => apply tame_get; intros ? ?; discriminate
    | |- tame _ _ _ (l_load_live _) => apply tame_live; intros ? ?; discriminate
    | |- tame _ _ _ (l_incr_by _ _) => apply tame_incrby
    | |- tame _ _ _ l_data_reset => apply tame_dr; reflexivity
    | |- tame _ _ _ l_exp_reset => apply tame_er; reflexivity
    | |- tame _ _ _ (l_he_get _ _) => apply tame_heget
    | |- tame _ _ _ (l_h_range _) => apply tame_hrange
    end ].
Lemma tame_cron ks cl : len_use cl = None -> forall L, tame cl tt_any L (l_cron_loop ks).
Proof.
  intros E. induction ks as [|k r IH]; intros L; [exact I|]. cbn [l_cron_loop]. eapply tame_bind; [apply tame_dl, only_none, E|].
  intros L1 v _ _. eapply (tame_bind _ tt_any); [|intros; apply IH]. tm.
Qed.
Lemma tame_mset kv cl : forall L, tame cl tt_any L (l_mset_loop kv).
Proof. induction kv as [|[k v] r IH]; intros L; [exact I|]. cbn [l_mset_loop]. tm. apply IH. Qed.
Lemma tame_msetnx kv cl : forall n L, tame cl tt_any L (l_msetnx_loop kv n).
Proof. induction kv as [|[k v] r IH]; intros n L; [exact I|]. cbn [l_msetnx_loop]. tm. apply IH. Qed.
Lemma tame_mget ks cl : len_use cl = None -> forall L, tame cl tt_any L (l_mget_loop ks).
Proof.
  intros E. induction ks as [|k r IH]; intros L; [exact I|]. cbn [l_mget_loop]. eapply tame_bind; [apply tame_get, only_none, E|].
  intros L1 v _ _. tm. apply IH.
Qed.
Lemma tame_exists ks cl : len_use cl = None -> forall n L, tame cl tt_any L (l_exists_loop ks n).
Proof.
  intros E. induction ks as [|k r IH]; intros n L; [exact I|]. cbn [l_exists_loop]. eapply tame_bind; [apply tame_dl, only_none, E|].
  intros L1 v _ _. apply IH.
Qed.
Lemma tame_hdl cl l fs : forall n L, tame cl tt_any L (l_hdel_loop l fs n).
Proof. induction fs as [|f r IH]; intros n L; [exact I|]. cbn [l_hdel_loop]. tmc; apply IH. Qed.
Lemma tame_hms cl k l fv : len_use cl = Some (k, true) -> forall n (L : positive -> Prop), L l -> tame cl tt_any L (l_hmset_loop l fv n).
Proof.
  intros E. induction fv as [|[f v] r IH]; intros n L Hl; [exact I|]. cbn [l_hmset_loop]. eapply tame_bind; [eapply tame_heset; eassumption|].
  intros L1 x _ H1. apply IH, H1.
Qed.
Lemma tame_hmg cl h fs : forall L, tame cl tt_any L (l_hmget_loop h fs).
Proof.
  induction fs as [|f r IH]; intros L; [exact I|]. cbn [l_hmget_loop]. eapply (tame_bind _ tt_any); [destruct h; tmc|].
  intros L1 s _ _. tm. apply IH.
Qed.
Ltac slf k := first [intros ? ? [= <- _]; reflexivity | intros ? ?; discriminate].
Ltac hstart k := eapply (tame_bind _ tt_any); [|intros; exact I]; eapply tame_bind; [apply tame_ghe; slf k|];
  let L := fresh "L1" in let h := fresh "h" in let S := fresh "S1" in let H := fresh "H1" in intros L h S H; cbv beta in H.
Lemma l_shape cl : (takes_lock cl = false /\ forall L, tame cl tt_any L (l_call cl)) \/
  (takes_lock cl = true /\ exists (A : Type) (b : lprog A) g, (l_call cl = l_pmap g (l_locked b) \/ l_call cl = l_pmap g (l_rlocked b) /\ cl <> CFlush) /\ forall L, tame cl tt_any L b).
Proof.
  destruct cl; (try (right; split; [reflexivity|]; do 3 eexists; split; [first [left; reflexivity|right; split; [reflexivity|discriminate]]|intros L; solve [tmc | tmc; apply tame_cron; reflexivity]])).
  all: left; split; [reflexivity|]; intros L; cbn [l_call]; unfold l_pmap; lunf.
  - eapply (tame_bind _ tt_any); [|intros; exact I]. eapply (tame_bind _ tt_any); [|intros; exact I]. apply tame_mset.
  - eapply (tame_bind _ tt_any); [|intros; exact I]. apply tame_msetnx.
  - eapply (tame_bind _ tt_any); [|intros; exact I]. apply tame_mget. reflexivity.
  - eapply (tame_bind _ tt_any); [|intros; exact I]. apply tame_exists. reflexivity.
  - eapply (tame_bind _ tt_any); [|intros; exact I]. eapply tame_bind; [apply tame_get; intros ? ?; discriminate|intros; exact I].
  - hstart k. assert (X : tame (CHSet k f v) tt_any L1 (lbind (l_get_or_new k h) (fun l => lbind (l_he_set l f v) (fun n => LRet (n, @None goerr))))).
    { eapply tame_bind; [eapply tame_gon; [reflexivity|exact H1]|]. intros L2 l _ H2. eapply tame_bind; [eapply tame_heset; [reflexivity|exact H2]|]. intros; exact I. }
    destruct h; [exact X|exact X|exact I].
  - hstart k. assert (X : tame (CHSetNX k f v) tt_any L1 (lbind (l_get_or_new k h) (fun l => lbind (l_h_load_or_store l f (VStr v)) (fun r =>
         if snd r then LRet (0, @None goerr) else lbind (l_h_get_len l) (fun len => lbind (l_h_set_len l (wrap64 (len + 1))) (fun _ => LRet (1, None))))))).
    { eapply tame_bind; [eapply tame_gon; [reflexivity|exact H1]|]. intros L2 l _ H2. eapply tame_bind; [apply tame_hls|]. intros L3 r S3 _.
      destruct (snd r); [exact I|]. eapply tame_bind; [eapply tame_hgl; [reflexivity|auto]|]. intros L4 n S4 _.
      eapply tame_bind; [eapply tame_hsl; [reflexivity|auto]|]. intros; exact I. }
    destruct h; [exact X|exact X|exact I].
  - hstart k. destruct h as [|l|]; [exact I| |exact I]. specialize (H1 l eq_refl). eapply tame_bind; [apply tame_heget|]. intros L2 v S2 _. cbv zeta.
    eapply tame_bind; [eapply tame_hgl; [reflexivity|auto]|]. intros L4 n S4 _. eapply tame_bind; [eapply tame_hsl; [reflexivity|auto]|]. intros; exact I.
  - hstart k. destruct h as [|l|]; [exact I| |exact I]. specialize (H1 l eq_refl). eapply tame_bind; [apply tame_hdl|]. intros L2 v S2 _.
    eapply (tame_bind _ tt_any); [|intros; exact I]. destruct (v =? 0); [exact I|].
    eapply tame_bind; [eapply tame_hgl; [reflexivity|auto]|]. intros L4 n S4 _. eapply tame_hsl; [reflexivity|auto].
  - hstart k. destruct h as [|l|]; [exact I| |exact I]. specialize (H1 l eq_refl).
    eapply tame_bind; [eapply tame_hgl; [reflexivity|auto]|]. intros; exact I.
  - hstart k. tmc.
  - hstart k. assert (X : tame (CHIncrBy k f d) tt_any L1 (lbind (l_get_or_new k h) (fun l => lbind (l_h_load l f) (fun v => match v with
         | None => lbind (l_he_set l f (itoa d)) (fun _ => LRet (d, @None goerr))
         | Some x => match hincr_val x d with None => LRet (0, Some ErrHashValueIsNotFloat) | Some n => lbind (l_he_set l f (itoa d)) (fun _ => LRet (n, None)) end end)))).
    { eapply tame_bind; [eapply tame_gon; [reflexivity|exact H1]|]. intros L2 l _ H2. eapply tame_bind; [apply tame_hl|]. intros L3 v S3 _.
      cbv beta in H2. apply S3 in H2. destruct v as [x|]; [destruct (hincr_val x d); [|exact I]|]; (eapply tame_bind; [eapply tame_heset; [reflexivity|exact H2]|intros; exact I]). }
    destruct h; [exact X|exact X|exact I].
  - hstart k. assert (X : tame (CHIncrByFloat k f d) tt_any L1 (lbind (l_get_or_new k h) (fun l => lbind (l_h_load l f) (fun v => match v with
         | None => lbind (l_he_set l f (format_float d)) (fun _ => LRet (d, @None goerr))
         | Some x => match hincrf_val x d with None => LRet (SpecFloat.S754_zero false, Some ErrHashValueIsNotFloat) | Some n => lbind (l_he_set l f (format_float d)) (fun _ => LRet (n, None)) end end)))).
    { eapply tame_bind; [eapply tame_gon; [reflexivity|exact H1]|]. intros L2 l _ H2. eapply tame_bind; [apply tame_hl|]. intros L3 v S3 _.
      cbv beta in H2. apply S3 in H2. destruct v as [x|]; [destruct (hincrf_val x d); [|exact I]|]; (eapply tame_bind; [eapply tame_heset; [reflexivity|exact H2]|intros; exact I]). }
    destruct h; [exact X|exact X|exact I].
  - hstart k. assert (X : tame (CHMSet k fv) tt_any L1 (lbind (l_get_or_new k h) (fun l => lbind (l_hmset_loop l fv 0) (fun n => LRet (n, @None goerr))))).
    { eapply tame_bind; [eapply tame_gon; [reflexivity|exact H1]|]. intros L2 l _ H2. eapply tame_bind; [eapply tame_hms; [reflexivity|exact H2]|]. intros; exact I. }
    destruct h; [exact X|exact X|exact I].
  - hstart k. destruct h; [| |exact I]; (eapply tame_bind; [apply tame_hmg|intros; exact I]).
  - hstart k. tmc.
  - hstart k. tmc.
  - hstart k. tmc.
  - hstart k. tmc.
Qed.

(** the call goroutine [i] is inside, after the events [evs] *)
Definition note (e : event) (f : nat -> option call) : nat -> option call := fun i =>
  match e with
  | EInv j c => if decide (i = j) then Some c else f i
  | ERet j _ => if decide (i = j) then None else f i
  | ETick _ => f i
  end.
Fixpoint notes (evs : list event) (f : nat -> option call) : nat -> option call :=
  match evs with [] => f | e :: r => notes r (note e f) end.
Definition inside (evs : list event) (i : nat) : option call := notes evs (fun _ => None) i.

Definition l_at (cl : call) (O : positive -> gostr -> Prop) (x : pc) (p : lprog reply) : Prop :=
  match x with
  | Out => (exists r, p = LRet r) \/
           (takes_lock cl = false /\ exists L, holds cl L O /\ tame cl tt_any L p) \/
           (takes_lock cl = true /\ exists (A : Type) (b : lprog A) g, (p = l_pmap g (l_locked b) \/ p = l_pmap g (l_rlocked b) /\ cl <> CFlush) /\ forall L, tame cl tt_any L b)
  | InW => takes_lock cl = true /\ exists (A : Type) (b : lprog A) g L, p = lfin b g /\ holds cl L O /\ tame cl tt_any L b
  | InR => (takes_lock cl = true /\ cl <> CFlush) /\ exists (A : Type) (b : lprog A) g L, p = lfinr b g /\ holds cl L O /\ tame cl tt_any L b
  end.
Lemma holds_grow cl L (O O' : positive -> gostr -> Prop) : (forall l k, O l k -> O' l k) -> holds cl L O -> holds cl L O'.
Proof. intros H Hh l Hl k b E. apply H. exact (Hh l Hl k b E). Qed.
Lemma l_at_grow cl (O O' : positive -> gostr -> Prop) x p : (forall l k, O l k -> O' l k) -> l_at cl O x p -> l_at cl O' x p.
Proof.
  intros H. destruct x; cbn.
  - intros [X|[(X & L & Y & Z)|X]]; [left; exact X|right; left; split; [exact X|]; exists L; split; [eapply holds_grow; eassumption|exact Z]|right; right; exact X].
  - intros (X & A & b & g & L & E & Y & Z). split; [exact X|]. exists A, b, g, L. split; [exact E|]. split; [eapply holds_grow; eassumption|exact Z].
  - intros (X & A & b & g & L & E & Y & Z). split; [exact X|]. exists A, b, g, L. split; [exact E|]. split; [eapply holds_grow; eassumption|exact Z].
Qed.

Record rinv (c : lconf) (calls : nat -> option call) (h : option nat) (R : gset nat) (O : positive -> gostr -> Prop) : Prop := Rinv {
  ri_w : w_writer (lc_w c) = match h with Some _ => true | None => false end;
  ri_r : w_readers (lc_w c) = size R;
  ri_ex : is_Some h -> R = ∅;
  ri_th : forall i, match lc_th c !! i with
                    | Some p => exists cl, calls i = Some cl /\ l_at cl O (place h R i) p
                    | None => calls i = None /\ place h R i = Out
                    end;
  ri_inv : inv (lc_w c) O }.

Lemma rinv_same c calls h R O i w' p' cl O' : rinv c calls h R O -> calls i = Some cl -> same_lock (lc_w c) w' -> inv w' O' -> (forall l k, O l k -> O' l k) ->
  l_at cl O' (place h R i) p' -> rinv (LConf w' (<[i := p']> (lc_th c))) calls h R O'.
Proof.
  intros [Hw Hr Hex Hth Hi] Ec [E1 E2] Hi' Hg Hp. constructor; cbn [lc_w lc_th]; [congruence|congruence|exact Hex| |exact Hi'].
  intros j. destruct (decide (j = i)) as [->|N]; [rewrite lookup_insert; eauto|]. rewrite lookup_insert_ne by congruence.
  specialize (Hth j). destruct (lc_th c !! j); [|exact Hth]. destruct Hth as (cl' & E & H). exists cl'. split; [exact E|]. eapply l_at_grow; eassumption.
Qed.
Lemma rinv_move c calls h R O i w' p' cl h' R' : rinv c calls h R O -> calls i = Some cl ->
  w_next w' = w_next (lc_w c) -> w_data w' = w_data (lc_w c) ->
  w_writer w' = match h' with Some _ => true | None => false end -> w_readers w' = size R' -> (is_Some h' -> R' = ∅) ->
  (forall j, j <> i -> place h' R' j = place h R j) -> l_at cl O (place h' R' i) p' ->
  rinv (LConf w' (<[i := p']> (lc_th c))) calls h' R' O.
Proof.
  intros [Hw Hr Hex Hth Hi] Ec En Ed Ew Er Hex' Hpl Hp. constructor; cbn [lc_w lc_th]; [exact Ew|exact Er|exact Hex'| |eapply inv_same; eassumption].
  intros j. destruct (decide (j = i)) as [->|N]; [rewrite lookup_insert; eauto|]. rewrite lookup_insert_ne by congruence. rewrite Hpl by exact N. apply Hth.
Qed.
Lemma tame_step {A} cl L b (f : world -> ares (lprog A)) w O w' p' : tame cl tt_any L (LStep b f) -> inv w O -> holds cl L O -> f w = Go w' p' ->
  same_lock w w' /\ exists O' (L' : positive -> Prop), inv w' O' /\ (forall l k, O l k -> O' l k) /\ holds cl L' O' /\ tame cl tt_any L' p'.
Proof.
  intros (a & -> & _ & H) Hi Hh E. specialize (H w O Hi Hh). rewrite E in H. destruct H as (H1 & O' & L' & H2 & H3 & H4 & _ & H5). eauto 10.
Qed.

(** the label of the next operation of goroutine [i] *)
Definition next_label (c : lconf) (i : nat) : option label :=
  match lc_th c !! i with Some (LStep b _) => Some b | _ => None end.
(** how the holders of the lock change in one step *)
Inductive moves (c : lconf) (h : option nat) (R : gset nat) : act -> option nat -> gset nat -> Prop :=
| mv_same a : moves c h R a h R
| mv_lock i : next_label c i = Some LLock -> h = None -> R = ∅ -> moves c h R (ARun i) (Some i) ∅
| mv_unlock i : next_label c i = Some LUnlock -> h = Some i -> R = ∅ -> moves c h R (ARun i) None ∅
| mv_rlock i : next_label c i = Some LRLock -> h = None -> i ∉ R -> moves c h R (ARun i) None ({[i]} ∪ R)
| mv_runlock i : next_label c i = Some LRUnlock -> h = None -> i ∈ R -> moves c h R (ARun i) None (R ∖ {[i]}).

Lemma rinv_step c calls h R O a c' e : rinv c calls h R O -> lstep a c = Some (c', e) ->
  exists h' R' O', rinv c' (notes e calls) h' R' O' /\ (forall l k, O l k -> O' l k) /\ moves c h R a h' R'.
Proof.
  intros Hinv E. pose proof Hinv as [Hw Hr Hex Hth Hi]. destruct a as [i cl|i|i|t]; cbn in E.
  - destruct (lc_th c !! i) eqn:Ei; [discriminate|]. injection E as <- <-. pose proof (Hth i) as Hp. rewrite Ei in Hp. destruct Hp as [Ec Hp].
    exists h, R, O. split; [|split; [auto|apply mv_same]]. constructor; cbn [lc_w lc_th notes]; auto. intros j. unfold note. destruct (decide (j = i)) as [->|N].
    + rewrite lookup_insert. exists cl. split; [reflexivity|]. rewrite Hp. right. destruct (l_shape cl) as [[T H]|[T (A & b & g & H)]]; [left|right; split; [exact T|eauto]].
      split; [exact T|]. exists (fun _ => False). split; [intros l []|apply H].
    + rewrite lookup_insert_ne by congruence. apply Hth.
  - destruct (lc_th c !! i) as [[r|b f]|] eqn:Ei; try discriminate. destruct (f (lc_w c)) as [w' p'| |] eqn:Ef; try discriminate. injection E as <- <-.
    pose proof (Hth i) as Hp. rewrite Ei in Hp. destruct Hp as (cl & Ec & Hp). cbn [notes]. destruct (place h R i) eqn:Epl; cbn in Hp.
    + destruct Hp as [(r & Er)|[(T & L & Hh & Ht)|(T & A & b' & g & [Eb|[Eb NF]] & Ht)]]; [discriminate| | |].
      * destruct (tame_step _ _ _ _ _ _ _ _ Ht Hi Hh Ef) as (H1 & O' & L' & H2 & H3 & H4 & H5). exists h, R, O'. split; [|split; [auto|apply mv_same]].
        eapply rinv_same; eauto. rewrite Epl. right; left. eauto.
      * cbn in Eb. injection Eb as -> ->. rewrite Hw, Hr in Ef. destruct h as [h|]; cbn in Ef; [discriminate|].
        destruct (Nat.eqb_spec (size R) 0) as [Hs|]; cbn in Ef; [|discriminate]. injection Ef as <- <-.
        assert (HR : R = ∅) by (apply leibniz_equiv, size_empty_iff, Hs). subst R. exists (Some i), ∅, O. split; [|split; [auto|apply mv_lock; [unfold next_label; rewrite Ei; reflexivity|reflexivity|reflexivity]]].
        eapply rinv_move; eauto.
        -- intros j N. apply place_other, N.
        -- unfold place. rewrite decide_True by auto. split; [exact T|]. exists A, b', g, (fun _ => False). split; [reflexivity|]. split; [intros l []|apply Ht].
      * cbn in Eb. injection Eb as -> ->. rewrite Hw in Ef. destruct h as [h|]; cbn in Ef; [discriminate|]. injection Ef as <- <-.
        apply place_O in Epl as [_ HiR]. exists None, ({[i]} ∪ R), O. split; [|split; [auto|apply mv_rlock; [unfold next_label; rewrite Ei; reflexivity|reflexivity|exact HiR]]]. eapply rinv_move; eauto.
        -- cbn. rewrite size_union by set_solver. rewrite size_singleton, Hr. reflexivity.
        -- intros [? ?]. discriminate.
        -- intros j N. unfold place. rewrite !decide_False by congruence. destruct (decide (j ∈ R)); [rewrite decide_True by set_solver|rewrite decide_False by set_solver]; reflexivity.
        -- unfold place. rewrite decide_False, decide_True by (congruence || set_solver). split; [split; [exact T|exact NF]|]. exists A, b', g, (fun _ => False).
           split; [reflexivity|]. split; [intros l []|apply Ht].
    + pose proof (place_W _ _ _ Epl) as ->. destruct Hp as (T & A & b' & g & L & Eb & Hh & Ht). destruct b' as [r|lb fb]; cbn in Eb.
      * injection Eb as -> ->. rewrite Hw in Ef. injection Ef as <- <-. specialize (Hex (ex_intro _ _ eq_refl)). subst R.
        exists None, ∅, O. split; [|split; [auto|apply mv_unlock; [unfold next_label; rewrite Ei; reflexivity|reflexivity|reflexivity]]]. eapply rinv_move; eauto.
        -- intros j N. symmetry. apply place_other, N.
        -- unfold place. rewrite !decide_False by (congruence || set_solver). left. eexists. reflexivity.
      * injection Eb as -> ->. destruct (fb (lc_w c)) as [w1 b1| |] eqn:Efb; cbn in Ef; try discriminate. injection Ef as -> <-.
        destruct (tame_step _ _ _ _ _ _ _ _ Ht Hi Hh Efb) as (H1 & O' & L' & H2 & H3 & H4 & H5). exists (Some i), R, O'. split; [|split; [auto|apply mv_same]].
        eapply rinv_same; eauto. rewrite Epl. split; [exact T|]. exists A, b1, g, L'. auto.
    + pose proof (place_R _ _ _ Epl) as [Hh' HiR]. destruct Hp as (T & A & b' & g & L & Eb & Hh & Ht). destruct b' as [r|lb fb]; cbn in Eb.
      * injection Eb as -> ->. rewrite Hr in Ef. assert (Hsz : size R = Datatypes.S (size (R ∖ {[i]}))).
        { rewrite (union_difference_L {[i]} R) at 1 by set_solver. rewrite size_union by set_solver. rewrite size_singleton. reflexivity. }
        rewrite Hsz in Ef. cbn in Ef. injection Ef as <- <-.
        assert (Hn : h = None). { destruct h; [|reflexivity]. rewrite Hex in HiR by eauto. set_solver. } subst h.
        exists None, (R ∖ {[i]}), O. split; [|split; [auto|apply mv_runlock; [unfold next_label; rewrite Ei; reflexivity|reflexivity|exact HiR]]]. eapply rinv_move; eauto.
        -- intros [? ?]. discriminate.
        -- intros j N. unfold place. rewrite !decide_False by congruence. destruct (decide (j ∈ R)); [rewrite decide_True by set_solver|rewrite decide_False by set_solver]; reflexivity.
        -- unfold place. rewrite !decide_False by (congruence || set_solver). left. eexists. reflexivity.
      * injection Eb as -> ->. destruct (fb (lc_w c)) as [w1 b1| |] eqn:Efb; cbn in Ef; try discriminate. injection Ef as -> <-.
        destruct (tame_step _ _ _ _ _ _ _ _ Ht Hi Hh Efb) as (H1 & O' & L' & H2 & H3 & H4 & H5). exists h, R, O'. split; [|split; [auto|apply mv_same]].
        eapply rinv_same; eauto. rewrite Epl. split; [exact T|]. exists A, b1, g, L'. auto.
  - destruct (lc_th c !! i) as [[r|b f]|] eqn:Ei; try discriminate. injection E as <- <-.
    pose proof (Hth i) as Hp. rewrite Ei in Hp. destruct Hp as (cl & Ec & Hp).
    assert (Hout : place h R i = Out).
    { destruct (place h R i) eqn:Ep; [reflexivity| |]; destruct Hp as (_ & A & b & g & L & Eb & _); destruct b; discriminate Eb. }
    exists h, R, O. split; [|split; [auto|apply mv_same]]. constructor; auto; cbn [lc_w lc_th notes]. intros j. unfold note. destruct (decide (j = i)) as [->|N]; [rewrite lookup_delete; auto|].
    rewrite lookup_delete_ne by auto. apply Hth.
  - destruct (Z.leb_spec (w_now (lc_w c)) t) as [Ht|]; [|discriminate]. injection E as <- <-.
    exists h, R, O. split; [|split; [auto|apply mv_same]]. constructor; [exact Hw|exact Hr|exact Hex|exact Hth|exact Hi].
Qed.
Lemma notes_app e1 e2 f : notes (e1 ++ e2) f = notes e2 (notes e1 f).
Proof. revert f. induction e1 as [|e r IH]; intros f; [reflexivity|]. apply IH. Qed.
(** the holders along a schedule *)
Inductive holders : list act -> lconf -> option nat -> gset nat -> lconf -> option nat -> gset nat -> Prop :=
| ho_nil c h R : holders [] c h R c h R
| ho_snoc s c h R c1 h1 R1 a c2 h2 R2 e : holders s c h R c1 h1 R1 -> lstep a c1 = Some (c2, e) -> moves c1 h1 R1 a h2 R2 -> holders (s ++ [a]) c h R c2 h2 R2.
Lemma holders_cons a s c h R c1 h1 R1 c2 h2 R2 e : lstep a c = Some (c1, e) -> moves c h R a h1 R1 -> holders s c1 h1 R1 c2 h2 R2 -> holders (a :: s) c h R c2 h2 R2.
Proof.
  intros E M H. induction H as [c1 h1 R1|s c1 h1 R1 c2 h2 R2 b c3 h3 R3 e' H IH E' M'].
  - apply (ho_snoc [] c h R c h R a c1 h1 R1 e); [constructor|exact E|exact M].
  - rewrite app_comm_cons. eapply ho_snoc; [apply IH; [exact E|exact M]|exact E'|exact M'].
Qed.
Lemma rinv_exec s : forall c calls h R O c' e, rinv c calls h R O -> lexec s c = Some (c', e) ->
  exists h' R' O', rinv c' (notes e calls) h' R' O' /\ (forall l k, O l k -> O' l k) /\ holders s c h R c' h' R'.
Proof.
  induction s as [|a s IH]; intros c calls h R O c' e H E; cbn [lexec] in E; [injection E as <- <-; exists h, R, O; split; [exact H|split; [auto|constructor]]|].
  destruct (lstep a c) as [[c1 e1]|] eqn:E1; [|discriminate]. destruct (lexec s c1) as [[c2 e2]|] eqn:E2; [|discriminate]. injection E as <- <-.
  destruct (rinv_step _ _ _ _ _ _ _ _ H E1) as (h1 & R1 & O1 & H1 & Hg & M). rewrite notes_app.
  destruct (IH _ _ _ _ _ _ _ H1 E2) as (h2 & R2 & O2 & H2 & Hg2 & Hh). exists h2, R2, O2. split; [exact H2|]. split; [auto|]. eapply holders_cons; eassumption.
Qed.
Lemma rinv_start w : ready w -> exists O, rinv (lstart w) (fun _ => None) None ∅ O.
Proof.
  intros [R1 R2 (d & Ed & R3 & R4) R5 R6 R7]. exists (fun l k => d !! k = Some (VHash l)). constructor; cbn; auto.
  - intros i. rewrite lookup_empty. split; reflexivity.
  - split; [|split].
    + intros d' k l E. rewrite Ed in E. injection E as <-. auto.
    + intros l k k'. apply R4.
    + intros l k Hl. apply R6, (R3 k), Hl.
Qed.

(** ** What the next operation of a goroutine touches *)
Definition next_access (c : lconf) (i : nat) : list access :=
  match lc_th c !! i with Some (LStep (LAcc a) _) => a | _ => [] end.
Lemma rinv_next c calls h R O i x : rinv c calls h R O -> x ∈ next_access c i ->
  exists cl L, calls i = Some cl /\ holds cl L O /\ perm cl L x /\
    match place h R i with Out => takes_lock cl = false | InR => cl <> CFlush | InW => True end.
Proof.
  intros [Hw Hr Hex Hth Hi] Hx. unfold next_access in Hx. specialize (Hth i). destruct (lc_th c !! i) as [[r|[| | | |a] f]|]; try (apply elem_of_nil in Hx as []).
  destruct Hth as (cl & Ec & Hp). exists cl. destruct (place h R i); cbn in Hp.
  - destruct Hp as [(r & Er)|[(T & L & Hh & a' & [= <-] & Hpm & _)|(T & A & b & g & [Eb|[Eb _]] & _)]]; [discriminate| |discriminate|discriminate].
    exists L. auto 6.
  - destruct Hp as (T & A & b & g & L & Eb & Hh & Ht). exists L. split; [exact Ec|]. split; [exact Hh|]. split; [|first [exact I|apply T]].
    destruct b as [r|lb fb]; cbn in Eb; [discriminate|]. injection Eb as <- _. destruct Ht as (a' & [= <-] & Hpm & _). apply Hpm, Hx.
  - destruct Hp as (T & A & b & g & L & Eb & Hh & Ht). exists L. split; [exact Ec|]. split; [exact Hh|]. split; [|first [exact I|apply T]].
    destruct b as [r|lb fb]; cbn in Eb; [discriminate|]. injection Eb as <- _. destruct Ht as (a' & [= <-] & Hpm & _). apply Hpm, Hx.
Qed.

(** ** Releasing and acquiring *)
Lemma lexec_cat s1 : forall s2 c c1 e1, lexec s1 c = Some (c1, e1) -> lexec (s1 ++ s2) c = match lexec s2 c1 with Some (c2, e2) => Some (c2, e1 ++ e2) | None => None end.
Proof.
  induction s1 as [|a r IH]; intros s2 c c1 e1 E; cbn in *; [injection E as -> <-; destruct (lexec s2 c1) as [[? ?]|]; reflexivity|].
  destruct (lstep a c) as [[c' e]|]; [|discriminate]. destruct (lexec r c') as [[c'' e'']|] eqn:Er; [|discriminate]. injection E as -> <-.
  rewrite (IH s2 _ _ _ Er). destruct (lexec s2 c1) as [[? ?]|]; [rewrite app_assoc; reflexivity|reflexivity].
Qed.
Lemma holders_exec s c h R c' h' R' : holders s c h R c' h' R' -> exists e, lexec s c = Some (c', e).
Proof.
  induction 1 as [|s c h R c1 h1 R1 a c2 h2 R2 e H [e1 IH] E M]; [eexists; reflexivity|].
  rewrite (lexec_cat _ [a] _ _ _ IH). cbn. rewrite E. eauto.
Qed.
Lemma place_set (R R' : gset nat) i : (i ∈ R <-> i ∈ R') -> place None R i = place None R' i.
Proof. intros H. unfold place. rewrite !decide_False by congruence. destruct (decide (i ∈ R)), (decide (i ∈ R')); tauto. Qed.
Lemma moves_place c h R a h' R' i : moves c h R a h' R' -> place h R i <> place h' R' i ->
  a = ARun i /\ match next_label c i with
                | Some LLock => (h = None /\ R = ∅) /\ place h' R' i = InW
                | Some LRLock => h = None /\ place h R i = Out /\ place h' R' i = InR
                | Some LUnlock | Some LRUnlock => place h' R' i = Out
                | _ => False
                end.
Proof.
  intros M N. destruct M as [a|j El -> ->|j El -> ->|j El -> Hj|j El -> Hj]; [congruence| | | |].
  - destruct (decide (i = j)) as [->|D]; [|rewrite place_other in N by exact D; congruence]. rewrite El. split; [reflexivity|]. split; [auto|].
    unfold place. rewrite decide_True by auto. reflexivity.
  - destruct (decide (i = j)) as [->|D]; [|rewrite place_other in N by exact D; congruence]. rewrite El. split; [reflexivity|].
    unfold place. rewrite !decide_False by (congruence || set_solver). reflexivity.
  - destruct (decide (i = j)) as [->|D].
    + rewrite El. split; [reflexivity|]. split; [reflexivity|]. split; unfold place; [rewrite !decide_False by (congruence || set_solver)|rewrite decide_False, decide_True by (congruence || set_solver)]; reflexivity.
    + destruct N. apply place_set. clear -D. set_solver.
  - destruct (decide (i = j)) as [->|D].
    + rewrite El. split; [reflexivity|]. unfold place. rewrite !decide_False by (congruence || set_solver). reflexivity.
    + destruct N. apply place_set. clear -D. set_solver.
Qed.
Definition releases (b : option label) : Prop := b = Some LUnlock \/ b = Some LRUnlock.
Definition acquires (b : option label) : Prop := b = Some LLock \/ b = Some LRLock.
(** whoever held the lock one way and holds it no more, or holds it the other way, has released it *)
Lemma must_release s c h R c' h' R' i : holders s c h R c' h' R' -> place h R i <> Out -> place h' R' i <> place h R i ->
  exists s1 s2 c1 e1, s = s1 ++ ARun i :: s2 /\ lexec s1 c = Some (c1, e1) /\ releases (next_label c1 i).
Proof.
  induction 1 as [|s c h R c1 h1 R1 a c2 h2 R2 e H IH E M]; intros Hin Hne; [congruence|].
  assert (Hd : {place h1 R1 i = place h R i} + {place h1 R1 i <> place h R i}) by (destruct (place h1 R1 i), (place h R i); auto; right; discriminate).
  destruct Hd as [Es|Ns].
  - destruct (moves_place _ _ _ _ _ _ i M) as [-> Hl]; [congruence|]. destruct (holders_exec _ _ _ _ _ _ _ H) as [e1 Hx].
    exists s, [], c1, e1. split; [reflexivity|]. split; [exact Hx|]. destruct (next_label c1 i) as [[]|]; try contradiction.
    + exfalso. destruct Hl as [[-> ->] _]. rewrite <- Es in Hin. apply Hin. unfold place. rewrite !decide_False by (congruence || set_solver). reflexivity.
    + left. reflexivity.
    + exfalso. destruct Hl as (_ & Hl & _). congruence.
    + right. reflexivity.
  - destruct (IH Hin Ns) as (s1 & s2 & c' & e' & -> & Hx & Hr). exists s1, (s2 ++ [a]), c', e'. split; [rewrite <- app_assoc; reflexivity|]. auto.
Qed.
(** if [i] held the lock and later [j] does, one of them for writing, then [i] released it and after that [j] acquired it *)
Lemma must_pass s c h R c' h' R' i j : holders s c h R c' h' R' -> i <> j -> place h R i <> Out -> place h' R' j <> Out ->
  place h R i = InW \/ place h' R' j = InW -> (is_Some h -> R = ∅) ->
  exists s1 s2 s3 c1 e1 c2 e2, s = s1 ++ ARun i :: s2 ++ ARun j :: s3 /\ lexec s1 c = Some (c1, e1) /\ releases (next_label c1 i) /\
    lexec (s1 ++ ARun i :: s2) c = Some (c2, e2) /\ acquires (next_label c2 j).
Proof.
  intros H Hij Hi Hj Hw Hex. induction H as [c h R|s c h R c1 h1 R1 a c2 h2 R2 e H IH E M].
  - exfalso. destruct Hw as [Hw|Hw].
    + apply place_W in Hw. subst h. specialize (Hex (ex_intro _ _ eq_refl)). subst R. apply Hj. unfold place. rewrite !decide_False by (congruence || set_solver). reflexivity.
    + apply place_W in Hw. subst h. specialize (Hex (ex_intro _ _ eq_refl)). subst R. apply Hi. unfold place. rewrite !decide_False by (congruence || set_solver). reflexivity.
  - assert (Hd : {place h1 R1 j = place h2 R2 j} + {place h1 R1 j <> place h2 R2 j}) by (destruct (place h1 R1 j), (place h2 R2 j); auto; right; discriminate).
    destruct Hd as [Es|Ns].
    + rewrite Es in IH. destruct (IH Hi Hj Hw Hex) as (s1 & s2 & s3 & ca & ea & cb & eb & -> & X). exists s1, s2, (s3 ++ [a]), ca, ea, cb, eb.
      split; [rewrite <- !app_assoc; cbn; rewrite <- !app_assoc; reflexivity|exact X].
    + destruct (moves_place _ _ _ _ _ _ j M Ns) as [-> Hl].
      assert (Hout : acquires (next_label c1 j) /\ place h1 R1 i <> place h R i).
      { destruct (next_label c1 j) as [[]|]; try contradiction.
        - destruct Hl as [[-> ->] _]. split; [left; reflexivity|]. intros X. apply Hi. rewrite <- X. unfold place. rewrite !decide_False by (congruence || set_solver). reflexivity.
        - destruct Hl as (-> & _ & Hl). split; [right; reflexivity|]. intros X. destruct Hw as [Hw|Hw]; [|congruence]. rewrite Hw in X. apply place_W in X. discriminate. }
      destruct Hout as [Ha Hout]. destruct (must_release _ _ _ _ _ _ _ i H Hi Hout) as (s1 & s2 & ca & ea & -> & Hx & Hr).
      destruct (holders_exec _ _ _ _ _ _ _ H) as [eb Hb].
      exists s1, s2, [], ca, ea, c1, eb. split; [rewrite <- app_assoc; reflexivity|]. auto.
Qed.
