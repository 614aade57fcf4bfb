(** * CacheFine: goroutines, with the dictionary pointers read separately

    In CacheConc.v an operation like c.dataDict.Load(key) is one step.  In the code it is two: the field c.dataDict is read (cache.go:18-22,
    an interface holding a pointer), then the method of the dictionary it points to is called (database.go:5-15).  Flush
    (cachedb.go:17-22) replaces the pointers, so that a goroutine without the lock may go on with a dictionary nobody else can
    reach.  Here dictionaries are objects with numbers: [f_data] and [f_exp] hold all ever made, [f_cd] and [f_ce] are the values of the
    fields. *)
From stdpp Require Import gmap list.
From Verif Require Import Base GoFloat CacheModel CacheSpec CacheConc.

Notation ddict := (gmap gostr gval).
Notation edict := (gmap gostr Z).
(** A goroutine inside a call: the rest of its program and, once it has read the fields for its next operation, what it read; or inside
    Flush, after so many of its steps. *)
Inductive fthread := FRun (p : prog reply) (read : option (nat * nat)) | FFlush (n : nat).
Record fconf := FConf { f_w : world; f_data : gmap nat ddict; f_exp : gmap nat edict; f_cd : nat; f_ce : nat; f_th : gmap nat fthread }.
(** [f_w] without its own dictionaries: those are [f_data] and [f_exp]. *)
Definition bare (w : world) : world := W None None (w_heap w) (w_next w) (w_writer w) (w_readers w) (w_now w).
Definition with_dicts (w : world) (d : ddict) (e : edict) : world :=
  W (Some d) (Some e) (w_heap w) (w_next w) (w_writer w) (w_readers w) (w_now w).
Definition fstart (w : world) (d : ddict) (e : edict) : fconf := FConf (bare w) {[0%nat := d]} {[0%nat := e]} 0 0 ∅.

(** The acts of CacheConc.v; [ARun i] in front of an operation reads the fields, the next [ARun i] performs it on what was read.
    Flush: Lock, two assignments of new dictionaries, Unlock (cachedb.go:17-22). *)
Definition fstep (a : act) (c : fconf) : option (fconf * list event) :=
  let upd th := FConf (f_w c) (f_data c) (f_exp c) (f_cd c) (f_ce c) th in
  match a with
  | AInv i cl =>
    match f_th c !! i with
    | Some _ => None
    | None => Some (upd (<[i := match cl with CFlush => FFlush 0 | _ => FRun (call_prog cl) None end]> (f_th c)), [EInv i cl])
    end
  | ARun i =>
    match f_th c !! i with
    | Some (FRun (Step f) None) => Some (upd (<[i := FRun (Step f) (Some (f_cd c, f_ce c))]> (f_th c)), [])
    | Some (FRun (Step f) (Some (gd, ge))) =>
      match f_data c !! gd, f_exp c !! ge with
      | Some d, Some e =>
        match f (with_dicts (f_w c) d e) with
        | Go w' p' =>
          match w_data w', w_exp w' with
          | Some d', Some e' => Some (FConf (bare w') (<[gd := d']> (f_data c)) (<[ge := e']> (f_exp c)) (f_cd c) (f_ce c) (<[i := FRun p' None]> (f_th c)), [])
          | _, _ => None
          end
        | _ => None
        end
      | _, _ => None
      end
    | Some (FFlush n) =>
      let th := <[i := FFlush (S n)]> (f_th c) in
      match n with
      | 0%nat => if w_writer (f_w c) || negb (Nat.eqb (w_readers (f_w c)) 0) then None
                 else Some (FConf (set_lock (f_w c) true 0) (f_data c) (f_exp c) (f_cd c) (f_ce c) th, [])
      | 1%nat => let g := fresh (dom (f_data c)) in
                 Some (FConf (f_w c) (<[g := ∅]> (f_data c)) (f_exp c) g (f_ce c) th, [])
      | 2%nat => let g := fresh (dom (f_exp c)) in
                 Some (FConf (f_w c) (f_data c) (<[g := ∅]> (f_exp c)) (f_cd c) g th, [])
      | 3%nat => if w_writer (f_w c) then Some (FConf (set_lock (f_w c) false (w_readers (f_w c))) (f_data c) (f_exp c) (f_cd c) (f_ce c) th, []) else None
      | _ => None
      end
    | _ => None
    end
  | ARet i =>
    match f_th c !! i with
    | Some (FRun (Ret r) _) => Some (upd (delete i (f_th c)), [ERet i r])
    | Some (FFlush 4) => Some (upd (delete i (f_th c)), [ERet i RUnit])
    | _ => None
    end
  | ATick t => if w_now (f_w c) <=? t then Some (FConf (set_now (f_w c) t) (f_data c) (f_exp c) (f_cd c) (f_ce c) (f_th c), [ETick t]) else None
  end.
Fixpoint fexec (s : list act) (c : fconf) : option (fconf * list event) :=
  match s with
  | [] => Some (c, [])
  | a :: r => match fstep a c with
              | None => None
              | Some (c1, e) => match fexec r c1 with None => None | Some (c2, es) => Some (c2, e ++ es) end
              end
  end.
