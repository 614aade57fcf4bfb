(** * CacheRange: sync.Map.Range with no more than its documentation promises

    CacheModel.v lets Range visit the keys of the moment it starts, in the order of the model's map. The documentation of sync.Map
    promises less: no key is visited twice; every key that is there during the whole call is visited; the value shown for a key is one it
    had at some point during the call; the order is open, and a key stored or deleted meanwhile may be visited or not.

    Here the goroutine is given, when it is called, any list of keys to look at. It goes on from the start of Range only if no key is listed
    twice and all keys stored at that moment are listed; keys that are listed and absent when it looks are not shown. A key may be looked at
    at any later moment of the call, so all visits that the documentation allows are covered: a key that is skipped because it was deleted
    and stored again is one that is looked at while it is absent. *)
From stdpp Require Import gmap list.
From Verif Require Import Base GoFloat CacheModel CacheConc.

Definition lists_all {A} (ks : list gostr) (m : gmap gostr A) : bool :=
  bool_decide (NoDup ks) && forallb (fun p => bool_decide (fst p ∈ ks)) (map_to_list m).
(** Range over a hash (cachehash.go:302-306, 319-325, 336-343) *)
Definition h_range_d (ks : list gostr) (l : positive) : prog (list (gostr * gval)) :=
  atom (fun w => match w_heap w !! l with None => Panic | Some o => if lists_all ks (h_map o) then Go w tt else Blocked end);;;
  h_visit l ks.
(** cachehash.go:295-309 *)
Definition m_hkeys_d (ks : list gostr) (k : gostr) : prog (gret (list gostr)) :=
  do h <- get_hash_entry k;
  match h with
  | HWrong => Ret ([], Some ErrWrongType)
  | HNil => panic
  | HEntry l => do es <- h_range_d ks l; Ret (map fst es, None)
  end.
(** cachehash.go:312-326 *)
Definition m_hvals_d (ks : list gostr) (k : gostr) : prog (gret (list gostr)) :=
  do h <- get_hash_entry k;
  match h with
  | HWrong => Ret ([], Some ErrWrongType)
  | HNil => panic
  | HEntry l => do es <- h_range_d ks l; Ret (omap (fun e => match snd e with VStr s => Some s | _ => None end) es, None)
  end.
(** cachehash.go:329-346 *)
Definition m_hgetall_d (ks : list gostr) (k : gostr) : prog (gret (option (gmap gostr gostr))) :=
  do h <- get_hash_entry k;
  match h with
  | HWrong => Ret (None, Some ErrWrongType)
  | HNil => panic
  | HEntry l => do es <- h_range_d ks l; if existsb hgetall_bad es then panic else Ret (None, None)
  end.
(** cachecron.go:7-24 *)
Definition m_cron_d (ks : list gostr) : prog unit := locked (
  atom (fun w => match w_data w with None => Panic | Some d => if lists_all ks d then Go w tt else Blocked end);;;
  cron_loop ks).
(** What a goroutine may do when it is called. *)
Definition by_doc (c : call) (p : prog reply) : Prop :=
  match c with
  | CHKeys k => exists ks, p = pmap RList (m_hkeys_d ks k)
  | CHVals k => exists ks, p = pmap RList (m_hvals_d ks k)
  | CHGetAll k => exists ks, p = pmap RMap (m_hgetall_d ks k)
  | CCron => exists ks, p = pmap (fun _ => RUnit) (m_cron_d ks)
  | _ => p = call_prog c
  end.
(** Goroutines: as in CacheConc.v, with these programs. *)
Inductive ostep : conf -> list event -> conf -> Prop :=
| o_inv c i cl p : c_th c !! i = None -> by_doc cl p -> ostep c [EInv i cl] (Conf (c_w c) (<[i := p]> (c_th c)))
| o_run c i c' : cstep (ARun i) c = Some (c', []) -> ostep c [] c'
| o_ret c i r c' : cstep (ARet i) c = Some (c', [ERet i r]) -> ostep c [ERet i r] c'
| o_tick c t c' : cstep (ATick t) c = Some (c', [ETick t]) -> ostep c [ETick t] c'.
Inductive oexec (w0 : world) : list event -> conf -> Prop :=
| o_start : oexec w0 [] (start w0)
| o_next evs c e c' : oexec w0 evs c -> ostep c e c' -> oexec w0 (evs ++ e) c'.
