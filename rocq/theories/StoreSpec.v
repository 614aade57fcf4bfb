(** * StoreSpec: a reference store, the cache as its documentation and Redis describe it

    Independent of the model of the code: a key holds a text or a hash of texts, and perhaps a deadline past which it does not
    exist.  Only the types of calls and replies and the Go conversions between numbers and texts are shared. *)
From Verif Require Import Base GoFloat CacheModel CacheSpec.

Inductive sval := Txt (s : gostr) | Hsh (m : gmap gostr gostr).
Notation item := (option (sval * option Z)).
Notation store := (gostr -> option (sval * option Z)).

Definition expired (t : Z) (x : item) : bool := match x with Some (_, Some dl) => dl <? t | _ => false end.
(** a key past its deadline does not exist *)
Definition live (t : Z) (x : item) : item := if expired t x then None else x.
Definition dl_of (x : item) : option Z := match x with Some (_, e) => e | None => None end.
Definition at_key (st : store) (k : gostr) (x : item) : store := fun k' => if decide (k' = k) then x else st k'.
Definition present (x : item) : bool := match x with Some _ => true | None => false end.

(** [old] with [r] written at [pos], padded with zero bytes *)
Definition splice (old : gostr) (pos : nat) (r : gostr) : gostr :=
  take pos old ++ repeat x00 (pos - length old) ++ r ++ drop (pos + length r) old.
(** the bytes from index [st] to index [en], both counted from the end when negative *)
Definition back (len i : Z) : Z := if i <? 0 then len + i else i.
Definition cut (s : gostr) (st en : Z) : gostr :=
  let lo := Z.max 0 (back (zlen s) st) in take (Z.to_nat (back (zlen s) en - lo + 1)) (drop (Z.to_nat lo) s).

(** a call that reads a text *)
Definition on_text {A} (z : A) (absent : gret A) (g : gostr -> A) (x : item) : gret A :=
  match x with None => absent | Some (Txt s, _) => (g s, None) | Some (Hsh _, _) => (z, Some ErrWrongType) end.
(** a call that reads a hash *)
Definition on_hash {A} (z : A) (absent : gret A) (g : gmap gostr gostr -> gret A) (x : item) : gret A :=
  match x with None => absent | Some (Hsh m, _) => g m | Some (Txt _, _) => (z, Some ErrWrongType) end.
(** a call that writes a hash, made if need be *)
Definition to_hash {A} (z : A) (g : gmap gostr gostr -> gmap gostr gostr * gret A) (x : item) : item * gret A :=
  match x with
  | None => (Some (Hsh (fst (g ∅)), None), snd (g ∅))
  | Some (Hsh m, e) => (Some (Hsh (fst (g m)), e), snd (g m))
  | Some (Txt _, _) => (x, (z, Some ErrWrongType))
  end.
Definition count_by (d : Z) (x : item) : item * gret Z :=
  match x with
  | None => (Some (Txt (itoa d), None), (d, None))
  | Some (Txt s, e) => match atoi s with
                       | Some n => (Some (Txt (itoa (n + d)), e), (n + d, None))
                       | None => (x, (0, Some ErrWrongType))
                       end
  | Some (Hsh _, _) => (x, (0, Some ErrWrongType))
  end.
Definition size_of (m : gmap gostr gostr) : Z := Z.of_nat (size m).
Definition slot_of_item (x : item) : slot :=
  match x with None => SlotErr ErrKeyNil | Some (Txt s, _) => SlotStr s | Some (Hsh _, _) => SlotErr ErrWrongType end.
Definition slot_of_field (m : gmap gostr gostr) (f : gostr) : slot := match m !! f with Some s => SlotStr s | None => SlotErr ErrKeyNil end.
Definition put_all (fv : list (gostr * gostr)) (m : gmap gostr gostr) : gmap gostr gostr := foldl (fun m p => <[fst p := snd p]> m) m fv.
Definition drop_all (fs : list gostr) (m : gmap gostr gostr) : gmap gostr gostr := foldl (fun m f => delete f m) m fs.

(** Calls on one key; [x] is what the key holds, [None] if it does not exist. *)
Definition ref1 (c : call) (t : Z) (x : item) : item * reply :=
  let ok := RStr (bs "OK", None) in
  let int (p : item * gret Z) := (fst p, RInt (snd p)) in
  match c with
  | CSet _ v => (Some (Txt v, None), ok)
  | CSetNX _ v => if present x then (x, RInt (0, None)) else (Some (Txt v, None), RInt (1, None))
  | CSetEX _ v n => (Some (Txt v, Some (t + 1000000000 * n)), ok)
  | CPSetEX _ v n => (Some (Txt v, Some (t + 1000000 * n)), ok)
  | CGet _ => (x, RStr (on_text [] ([], Some ErrKeyNil) id x))
  | CGetSet _ v => let r := on_text [] ([], Some ErrKeyNil) id x in
                   (match x with Some (Hsh _, _) => x | _ => Some (Txt v, None) end, RStr r)
  | CStrLen _ => (x, RInt (on_text 0 (0, None) zlen x))
  | CAppend _ v => match x with
                   | None => (Some (Txt v, None), RInt (zlen v, None))
                   | Some (Txt s, e) => (Some (Txt (s ++ v), e), RInt (zlen (s ++ v), None))
                   | Some (Hsh _, _) => (x, RInt (0, Some ErrWrongType))
                   end
  | CSetRange _ pos r =>
    if pos <? 0 then (x, RInt (0, Some ErrOffsetOutOfRange)) else
    match x with
    | None => let s := splice [] (Z.to_nat pos) r in (Some (Txt s, None), RInt (zlen s, None))
    | Some (Txt o, e) => let s := splice o (Z.to_nat pos) r in (Some (Txt s, e), RInt (zlen s, None))
    | Some (Hsh _, _) => (x, RInt (0, Some ErrWrongType))
    end
  | CGetRange _ st en => (x, RStr (on_text [] ([], None) (fun s => cut s st en) x))
  | CIncr _ => int (count_by 1 x)
  | CIncrBy _ d => int (count_by d x)
  | CDecr _ => int (count_by (-1) x)
  | CDecrBy _ d => int (count_by (- d) x)
  | CIncrByFloat _ f =>
    match x with
    | None => (Some (Txt (format_float f), None), RFloat (f, None))
    | Some (Txt s, e) => match parse_float s with
                         | Some y => (Some (Txt (format_float (f64_add y f)), e), RFloat (f64_add y f, None))
                         | None => (x, RFloat (S754_zero false, Some ErrWrongType))
                         end
    | Some (Hsh _, _) => (x, RFloat (S754_zero false, Some ErrWrongType))
    end
  | CDel _ => (None, RInt (if present x then 1 else 0, None))
  | CType _ => (x, RStr (match x with None => bs "none" | Some (Txt _, _) => bs "string" | Some (Hsh _, _) => bs "hash" end, None))
  | CHSet _ f v => int (to_hash 0 (fun m => (<[f := v]> m, (match m !! f with None => 1 | _ => 0 end, None))) x)
  | CHSetNX _ f v => int (to_hash 0 (fun m => match m !! f with None => (<[f := v]> m, (1, None)) | Some _ => (m, (0, None)) end) x)
  | CHExists _ f => (x, RInt (on_hash 0 (0, None) (fun m => (match m !! f with Some _ => 1 | None => 0 end, None)) x))
  | CHDel _ fs => match x with
                  | None => (None, RInt (0, None))
                  | Some (Txt _, _) => (x, RInt (0, Some ErrWrongType))
                  | Some (Hsh m, e) => let m' := drop_all fs m in
                                       (if decide (m' = ∅) then None else Some (Hsh m', e), RInt (size_of m - size_of m', None))
                  end
  | CHLen _ => (x, RInt (on_hash 0 (0, None) (fun m => (size_of m, None)) x))
  | CHStrLen _ f => (x, RInt (on_hash 0 (0, None) (fun m => (match m !! f with Some s => zlen s | None => 0 end, None)) x))
  | CHIncrBy _ f d => int (to_hash 0 (fun m =>
      match m !! f with
      | None => (<[f := itoa d]> m, (d, None))
      | Some s => match atoi s with
                  | Some n => (<[f := itoa (n + d)]> m, (n + d, None))
                  | None => (m, (0, Some ErrHashValueIsNotFloat))
                  end
      end) x)
  | CHIncrByFloat _ f d => let p := to_hash (S754_zero false) (fun m =>
      match m !! f with
      | None => (<[f := format_float d]> m, (d, None))
      | Some s => match parse_float s with
                  | Some y => (<[f := format_float (f64_add y d)]> m, (f64_add y d, None))
                  | None => (m, (S754_zero false, Some ErrHashValueIsNotFloat))
                  end
      end) x in (fst p, RFloat (snd p))
  | CHMSet _ fv => int (to_hash 0 (fun m => (put_all fv m, (size_of (put_all fv m) - size_of m, None))) x)
  | CHMGet _ fs => (x, RSlots (on_hash [] (map (fun _ => SlotErr ErrKeyNil) fs, None) (fun m => (map (slot_of_field m) fs, None)) x))
  | CHKeys _ => (x, RList (on_hash [] ([], None) (fun m => ((map_to_list m).*1, None)) x))
  | CHVals _ => (x, RList (on_hash [] ([], None) (fun m => ((map_to_list m).*2, None)) x))
  | CHGetAll _ => (x, RMap (on_hash None (Some ∅, None) (fun m => (Some m, None)) x))
  | CHGet _ f => (x, RStr (on_hash [] ([], Some ErrKeyNil) (fun m => match m !! f with Some s => (s, None) | None => ([], Some ErrKeyNil) end) x))
  | _ => (x, RUnit)
  end.

(** All calls.  A key past its deadline is dropped when a call names it, as Redis does. *)
Definition settle (t : Z) (ks : list gostr) (st : store) : store := fun k => if decide (k ∈ ks) then live t (st k) else st k.
Definition ref_call (c : call) (t : Z) (st : store) : store * reply :=
  match c with
  | CMSet kv => (foldl (fun s p => at_key s (fst p) (Some (Txt (snd p), None))) st kv, RStr (bs "OK", None))
  | CMSetNX kv => let st := settle t (map fst kv) st in
                  if existsb (fun p => present (st (fst p))) kv then (st, RInt (0, None))
                  else (foldl (fun s p => at_key s (fst p) (Some (Txt (snd p), None))) st kv, RInt (zlen kv, None))
  | CMGet ks => let st := settle t ks st in (st, RSlots (map (fun k => slot_of_item (st k)) ks, None))
  | CExists ks => let st := settle t ks st in (st, RInt (zlen (List.filter (fun k => present (st k)) ks), None))
  | CFlush => (fun _ => None, RUnit)
  | CCron => (fun k => live t (st k), RUnit)
  | c => match keys_of c with
         | Some [k] => let '(x, r) := ref1 c t (live t (st k)) in (at_key st k x, r)
         | _ => (st, RUnit)
         end
  end.
Fixpoint ref_run (h : list (Z * call)) (st : store) : list reply :=
  match h with
  | [] => []
  | (t, c) :: h => let '(st', r) := ref_call c t st in r :: ref_run h st'
  end.
(** Replies are the same; the order of a listing of a hash is left open. *)
Definition same_reply (a b : reply) : Prop :=
  match a, b with RList (l, e), RList (l', e') => l ≡ₚ l' /\ e = e' | _, _ => a = b end.
