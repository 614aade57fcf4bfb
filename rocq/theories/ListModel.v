(** * ListModel: the list entries (cache/cachelist.go)

    Go slices with their backing arrays, as far as ListEntry uses them: every slice starts at the beginning of
    its array, so that it is the array and a length, and the capacity is the length of the array. The capacity Go gives a
    grown slice is a parameter [grow capacity needed]. Nothing else in the code uses ListEntry. *)
From stdpp Require Import gmap.
From Verif Require Import Base CacheModel.

Record slice := Slice { s_arr : option nat; s_len : nat }.                       (* [None]: nil *)
Record lheap := LHeap { l_arr : gmap nat (list gostr); l_next : nat }.
Definition array (h : lheap) (s : slice) : list gostr := match s_arr s with Some a => default [] (l_arr h !! a) | None => [] end.
(** The elements of a slice *)
Definition elems (h : lheap) (s : slice) : list gostr := take (s_len s) (array h s).
Definition alloc (l : list gostr) (h : lheap) : nat * lheap := (l_next h, LHeap (<[l_next h := l]> (l_arr h)) (S (l_next h))).
(** Go append(s, xs...): in place if the capacity suffices *)
Definition append (grow : nat -> nat -> nat) (h : lheap) (s : slice) (xs : list gostr) : slice * lheap :=
  let n := (s_len s + length xs)%nat in
  let cap := length (array h s) in
  if (n <=? cap)%nat then
    match s_arr s with
    | Some a => (Slice (Some a) n, LHeap (<[a := take (s_len s) (array h s) ++ xs ++ drop n (array h s)]> (l_arr h)) (l_next h))
    | None => (s, h)
    end
  else let '(a, h') := alloc (take (s_len s) (array h s) ++ xs ++ repeat [] (grow cap n - n)) h in (Slice (Some a) n, h').

(** cachelist.go:9-11 *)
Definition append_tail (grow : nat -> nat -> nat) (h : lheap) (s : slice) (v : gostr) : slice * lheap := append grow h s [v].
(** cachelist.go:13-15: []string{val} is an array of one element *)
Definition append_head (grow : nat -> nat -> nat) (h : lheap) (s : slice) (v : gostr) : slice * lheap :=
  let '(a, h') := alloc [v] h in append grow h' (Slice (Some a) 1) (elems h s).

(** Entries by number. [LCopy i j]: the struct of [i] is assigned to [j]; an entry not seen yet is the zero value. *)
Inductive lop := LTail (i : nat) (v : gostr) | LHead (i : nat) (v : gostr) | LCopy (i j : nat).
Record lstate := LS { ls_heap : lheap; ls_ent : gmap nat slice }.
Definition l_start : lstate := LS (LHeap ∅ 0) ∅.
Definition entry (s : lstate) (i : nat) : slice := default (Slice None 0) (ls_ent s !! i).
Definition lrun (grow : nat -> nat -> nat) (o : lop) (s : lstate) : lstate :=
  match o with
  | LTail i v => let '(x, h) := append_tail grow (ls_heap s) (entry s i) v in LS h (<[i := x]> (ls_ent s))
  | LHead i v => let '(x, h) := append_head grow (ls_heap s) (entry s i) v in LS h (<[i := x]> (ls_ent s))
  | LCopy i j => LS (ls_heap s) (<[j := entry s i]> (ls_ent s))
  end.
Definition lruns (grow : nat -> nat -> nat) (l : list lop) (s : lstate) : lstate := foldl (fun s o => lrun grow o s) s l.
(** What a user of the entries sees *)
Definition shown (s : lstate) (i : nat) : list gostr := elems (ls_heap s) (entry s i).

(** cachelist.go:17-83: the list calls of Cache; all of them are panic("implement me") *)
Inductive lcall :=
| LPush (k : gostr) (vs : list gostr) | LPushX (k : gostr) (vs : list gostr) | RPush (k : gostr) (vs : list gostr) | RPushX (k : gostr) (vs : list gostr)
| LPop (k : gostr) | RPop (k : gostr) | RPopLPush (k k' : gostr) | LRem (k : gostr) (n : Z) (v : gostr) | LLen (k : gostr) | LIndex (k : gostr) (i : Z)
| LInsert (k d p v : gostr) | LSet (k : gostr) (i : Z) (v : gostr) | LRange (k : gostr) (i j : Z) | LTrim (k : gostr) (i j : Z)
| BLPop (t : Z) (ks : list gostr) | BRPop (t : Z) (ks : list gostr) | BRPopLPush (k k' : gostr) (t : Z).
Definition run_list (c : lcall) (w : world) : eres (list gostr) :=
  match c with
  | LPush _ _ | LPushX _ _ | RPush _ _ | RPushX _ _ | LPop _ | RPop _ | RPopLPush _ _ | LRem _ _ _ | LLen _ | LIndex _ _
  | LInsert _ _ _ _ | LSet _ _ _ | LRange _ _ _ | LTrim _ _ _ | BLPop _ _ | BRPop _ _ | BRPopLPush _ _ _ => EPanic
  end.
