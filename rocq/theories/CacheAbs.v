(** * CacheAbs: key-by-key functional view of the cache, and proof that every call of the model follows it

    Used only inside proofs: it replaces the step programs of CacheModel.v by
    functions on the state of the keys. *)
From Verif Require Import Base GoFloat CacheModel CacheSpec.

Inductive cell := CV (v : gval) | CH (o : hobj).
Notation kview := (option cell * option Z)%type.

Definition cell_of (h : gmap positive hobj) (v : gval) : cell :=
  match v with
  | VHash l => match h !! l with Some o => CH o | None => CV v end
  | _ => CV v
  end.
Definition cellat (d : gmap gostr gval) (h : gmap positive hobj) (k : gostr) : option cell :=
  cell_of h <$> d !! k.

Definition view (w : world) (k : gostr) : kview :=
  match w_data w, w_exp w with
  | Some d, Some e => (cellat d (w_heap w) k, e !! k)
  | _, _ => (None, None)
  end.

(** ** Abstract calls *)
Definition purge (t : Z) (v : kview) : kview :=
  match v with
  | (Some _, Some dl) => if dl <? t then (None, None) else v
  | _ => v
  end.

Definition fmt_cell (c : cell) : option gostr :=
  match c with CV v => fmt_string v | CH _ => None end.
Definition fmt_cret (c : cell) : gret gostr :=
  match fmt_cell c with Some s => (s, None) | None => ([], Some ErrWrongType) end.

Definition put (s : gostr) (v : kview) : kview := (Some (CV (try_int64 s)), snd v).
Definition dl_after (t dur : Z) : option Z := if dur <=? 0 then None else Some (t + dur).

Definition a_incr (d : Z) (v : kview) : kview * gret Z :=
  match fst v with
  | None => ((Some (CV (VInt64 d)), snd v), (d, None))
  | Some (CV x) => match incr_val x d with
                   | None => (v, (0, Some ErrWrongType))
                   | Some (y, n) => ((Some (CV y), snd v), (n, None))
                   end
  | Some (CH _) => (v, (0, Some ErrWrongType))
  end.

Definition empty_hobj := HObj ∅ 0.
Definition o_get (o : hobj) (f : gostr) : option gostr :=
  match h_map o !! f with
  | None => None
  | Some x => Some (match fmt_string x with Some s => s | None => [] end)
  end.
Definition o_isnew (o : hobj) (f : gostr) : Z := match h_map o !! f with Some _ => 0 | None => 1 end.
Definition o_set (o : hobj) (f v : gostr) : hobj :=
  HObj (<[f := try_int64 v]> (h_map o)) (wrap64 (h_len o + o_isnew o f)).
Fixpoint o_mset (o : hobj) (fv : list (gostr * gostr)) (n : Z) : hobj * Z :=
  match fv with
  | [] => (o, n)
  | (f, v) :: r => o_mset (o_set o f v) r (n + o_isnew o f)
  end.
Fixpoint o_del (o : hobj) (fs : list gostr) (n : Z) : hobj * Z :=
  match fs with
  | [] => (o, n)
  | f :: r => match o_get o f with
              | Some _ => o_del (HObj (delete f (h_map o)) (h_len o)) r (n + 1)
              | None => o_del o r n
              end
  end.
Definition slot_field (o : option gostr) : slot :=
  match o with Some s => SlotStr s | None => SlotErr ErrKeyNil end.

(** hash write: wrong type, or apply [g] to the (possibly new) object *)
Definition a_hwrite {A} (z : A) (g : hobj -> hobj * gret A) (v : kview) : kview * gret A :=
  match fst v with
  | None => let '(o, r) := g empty_hobj in ((Some (CH o), snd v), r)
  | Some (CH o) => let '(o', r) := g o in ((Some (CH o'), snd v), r)
  | Some (CV _) => (v, (z, Some ErrWrongType))
  end.
(** hash read/update that does not create *)
Definition a_hread {A} (z : A) (absent : gret A) (g : hobj -> hobj * gret A) (v : kview) : kview * gret A :=
  match fst v with
  | None => (v, absent)
  | Some (CH o) => let '(o', r) := g o in ((Some (CH o'), snd v), r)
  | Some (CV _) => (v, (z, Some ErrWrongType))
  end.

Definition g_hincr {A} (z : A) (val : gval -> A -> option A) (txt : A -> gostr) (f : gostr) (d : A) (o : hobj) : hobj * gret A :=
  match h_map o !! f with
  | None => (o_set o f (txt d), (d, None))
  | Some x => match val x d with
              | None => (o, (z, Some ErrHashValueIsNotFloat))
              | Some n => (o_set o f (txt d), (n, None))
              end
  end.

Definition wr {A} (inj : A -> reply) (x : kview * A) : option (kview * reply) :=
  Some (fst x, inj (snd x)).

Definition abs1 (c : call) (t : Z) (v : kview) : option (kview * reply) :=
  let p := purge t v in
  match c with
  | CSet _ s => Some (put s v, RStr (bs "OK", None))
  | CSetNX _ s => Some (match fst v with
                        | None => (put s v, RInt (1, None))
                        | Some _ => (v, RInt (0, None))
                        end)
  | CSetEX _ s n => Some ((Some (CV (try_int64 s)), dl_after t (wrap64 (second * n))), RStr (bs "OK", None))
  | CPSetEX _ s n => Some ((Some (CV (try_int64 s)), dl_after t (wrap64 (millisecond * n))), RStr (bs "OK", None))
  | CGet _ => Some (p, RStr (match fst p with None => ([], Some ErrKeyNil) | Some x => fmt_cret x end))
  | CGetSet _ s => Some (put s p, RStr (match fst p with None => ([], Some ErrKeyNil) | Some x => fmt_cret x end))
  | CStrLen _ => Some (p, RInt (match fst p with
                                | None => (0, None)
                                | Some x => match fmt_cell x with None => (0, Some ErrWrongType) | Some s => (zlen s, None) end
                                end))
  | CAppend _ s => Some (match fst p with
                         | None => (put s p, RInt (zlen s, None))
                         | Some x => match fmt_cell x with
                                     | None => (p, RInt (0, Some ErrWrongType))
                                     | Some o => (put (o ++ s) p, RInt (zlen (o ++ s), None))
                                     end
                         end)
  | CSetRange _ pos r =>
    if pos <? 0 then Some (v, RInt (0, Some ErrOffsetOutOfRange))
    else let n := Z.to_nat pos in
         match fst p with
         | None => if pos >? max_alloc then None
                   else let s := repeat x00 n ++ r in Some (put s p, RInt (zlen s, None))
         | Some x => Some (match fmt_cell x with
                           | None => (p, RInt (0, Some ErrWrongType))
                           | Some o => let s := setrange_loop (o ++ repeat x00 (n - length o)%nat) n r in
                                       (put s p, RInt (zlen s, None))
                           end)
         end
  | CGetRange _ st en =>
    Some (p, RStr (match fst p with
                   | None => ([], None)
                   | Some x => match fmt_cell x with
                               | None => ([], Some ErrWrongType)
                               | Some s =>
                                 let st' := if st <? 0 then zlen s + st else st in
                                 let en' := if en <? 0 then zlen s + en else en in
                                 (getrange_loop (S (length s)) s (Z.max 0 st') en', None)
                               end
                   end))
  | CIncr _ => wr RInt (a_incr 1 v)
  | CIncrBy _ d => wr RInt (a_incr d v)
  | CDecr _ => wr RInt (a_incr (-1) v)
  | CDecrBy _ d => wr RInt (a_incr (wrap64 (- d)) v)
  | CIncrByFloat _ f =>
    Some (match fst v with
          | None => ((Some (CV (VFloat f)), snd v), RFloat (f, None))
          | Some (CV (VFloat x)) => ((Some (CV (VFloat (f64_add x f))), snd v), RFloat (f64_add x f, None))
          | Some (CV (VInt z)) => ((Some (CV (VFloat (f64_add (f64_of_int z) f))), snd v), RFloat (f64_add (f64_of_int z) f, None))
          | Some _ => (v, RFloat (S754_zero false, Some ErrWrongType))
          end)
  | CDel _ => Some ((None, None), RInt (noerr match fst p with Some _ => 1 | None => 0 end))
  | CType _ => Some (p, RStr (noerr match fst p with None => bs "none" | Some _ => bs "string" end))
  | CHSet _ f s => wr RInt (a_hwrite 0 (fun o => (o_set o f s, (o_isnew o f, None))) p)
  | CHSetNX _ f s => wr RInt (a_hwrite 0 (fun o =>
      match h_map o !! f with
      | Some _ => (o, (0, None))
      | None => (HObj (<[f := VStr s]> (h_map o)) (wrap64 (h_len o + 1)), (1, None))
      end) p)
  | CHExists _ f => wr RInt (a_hread 0 (0, None) (fun o =>
      let n := match o_get o f with Some _ => 1 | None => 0 end in
      (HObj (h_map o) (wrap64 (h_len o - n)), (n, None))) p)
  | CHDel _ fs => wr RInt (a_hread 0 (0, None) (fun o =>
      let '(o', n) := o_del o fs 0 in
      (if n =? 0 then o' else HObj (h_map o') (wrap64 (h_len o' - n)), (n, None))) p)
  | CHLen _ => wr RInt (a_hread 0 (0, None) (fun o => (o, (h_len o, None))) p)
  | CHStrLen _ f => wr RInt (a_hread 0 (0, None) (fun o =>
      (o, (match o_get o f with Some s => zlen s | None => 0 end, None))) p)
  | CHIncrBy _ f d => wr RInt (a_hwrite 0 (g_hincr 0 hincr_val itoa f d) p)
  | CHIncrByFloat _ f d => wr RFloat (a_hwrite (S754_zero false) (g_hincr (S754_zero false) hincrf_val format_float f d) p)
  | CHMSet _ fv => wr RInt (a_hwrite 0 (fun o => let '(o', n) := o_mset o fv 0 in (o', (n, None))) p)
  | CHMGet _ fs => wr RSlots (a_hread [] (map (fun _ => SlotErr ErrKeyNil) fs, None) (fun o =>
      (o, (map (fun f => slot_field (o_get o f)) fs, None))) p)
  | CHKeys _ => match fst p with
                | None => None
                | Some (CV _) => Some (p, RList ([], Some ErrWrongType))
                | Some (CH o) => Some (p, RList (map fst (map_to_list (h_map o)), None))
                end
  | CHVals _ => match fst p with
                | None => None
                | Some (CV _) => Some (p, RList ([], Some ErrWrongType))
                | Some (CH o) => Some (p, RList (omap (fun e => match snd e with VStr s => Some s | _ => None end) (map_to_list (h_map o)), None))
                end
  | CHGetAll _ => match fst p with
                  | None => None
                  | Some (CV _) => Some (p, RMap (None, Some ErrWrongType))
                  | Some (CH o) => Some (p, RMap (None, None))
                  end
  | CHGet _ f => wr RStr (a_hread [] ([], Some ErrKeyNil) (fun o =>
      (o, match o_get o f with None => ([], Some ErrKeyNil) | Some s => (s, None) end)) p)
  | _ => None
  end.

Notation views := (gostr -> kview).
Definition upd (V : views) (k : gostr) (x : kview) : views :=
  fun k' => if decide (k' = k) then x else V k'.

Fixpoint a_mset (kv : list (gostr * gostr)) (V : views) : views :=
  match kv with
  | [] => V
  | (k, v) :: r => a_mset r (upd V k (put v (V k)))
  end.
Fixpoint a_msetnx (kv : list (gostr * gostr)) (n : Z) (V : views) : views * Z :=
  match kv with
  | [] => (V, n)
  | (k, v) :: r => match fst (V k) with
                   | Some _ => a_msetnx r n V
                   | None => a_msetnx r (n + 1) (upd V k (put v (V k)))
                   end
  end.
Definition slot_cell (c : option cell) : slot :=
  match c with
  | None => SlotErr ErrKeyNil
  | Some x => match fmt_cell x with Some s => SlotStr s | None => SlotErr ErrWrongType end
  end.
Fixpoint a_mget (t : Z) (ks : list gostr) (V : views) : views * list slot :=
  match ks with
  | [] => (V, [])
  | k :: r => let p := purge t (V k) in
              let '(V', l) := a_mget t r (upd V k p) in
              (V', slot_cell (fst p) :: l)
  end.
Fixpoint a_exists (ks : list gostr) (n : Z) (V : views) : Z :=
  match ks with
  | [] => n
  | k :: r => a_exists r (match fst (V k) with Some _ => n + 1 | None => n end) V
  end.
Definition a_cron (t : Z) (V : views) : views :=
  fun k => match fst (V k) with
           | Some c => (if zero_time <? t then None else Some c, None)
           | None => V k
           end.

Definition abs (c : call) (t : Z) (V : views) : option (views * reply) :=
  match c with
  | CMSet kv => Some (a_mset kv V, RStr (noerr (bs "OK")))
  | CMSetNX kv => let '(V', n) := a_msetnx kv 0 V in Some (V', RInt (noerr n))
  | CMGet ks => let '(V', l) := a_mget t ks V in Some (V', RSlots (noerr l))
  | CExists ks => Some (V, RInt (noerr (a_exists ks 0 V)))
  | CFlush => Some (fun _ => (None, None), RUnit)
  | CCron => Some (a_cron t V, RUnit)
  | c => match keys_of c with
         | Some [k] => match abs1 c t (V k) with
                       | Some (x, r) => Some (upd V k x, r)
                       | None => None
                       end
         | _ => None
         end
  end.

(** ** Facts about [eval] *)
Lemma prog_ind' {R} (P : prog R -> Prop) :
  (forall r, P (Ret r)) ->
  (forall f, (forall w w' p', f w = Go w' p' -> P p') -> P (Step f)) ->
  forall p, P p.
Proof.
  intros HR HS. fix IH 1. intros [r|f]; [apply HR|]. apply HS. intros w.
  destruct (f w) as [w1 p1| |]; intros w' p' E; [|discriminate E|discriminate E].
  injection E as _ <-. apply IH.
Qed.

Lemma eval_bind {A B} (p : prog A) (k : A -> prog B) w :
  eval (pbind p k) w = match eval p w with
                       | Done w' r => eval (k r) w'
                       | EBlocked => EBlocked
                       | EPanic => EPanic
                       end.
Proof.
  revert w. induction p as [r|f IH] using prog_ind'; intros w; simpl; [reflexivity|].
  destruct (f w) as [w' p'| |] eqn:E; eauto.
Qed.

(** ** Well-formedness on components *)
Record wf (d : gmap gostr gval) (h : gmap positive hobj) (n : positive) : Prop := Wf {
  wf_ptr : forall k l, d !! k = Some (VHash l) -> is_Some (h !! l);
  wf_inj : forall k k' l, d !! k = Some (VHash l) -> d !! k' = Some (VHash l) -> k = k';
  wf_next : forall l, is_Some (h !! l) -> (l < n)%positive;
  wf_flat : forall l o f v, h !! l = Some o -> h_map o !! f = Some v -> scalar v }.

Definition flat (o : hobj) : Prop := forall f v, h_map o !! f = Some v -> scalar v.

Lemma try_scalar s : scalar (try_int64 s).
Proof. unfold try_int64. destruct (atoi s); [exact I|]. destruct (parse_float s); exact I. Qed.

Lemma wf_insert d h n k v : scalar v -> wf d h n -> wf (<[k:=v]> d) h n.
Proof.
  intros Hv [H1 H2 H3 H4]. split; auto.
  - intros k' l. rewrite lookup_insert_Some. intros [[_ ->]|[_ H]]; [destruct Hv|eauto].
  - intros k1 k2 l. rewrite !lookup_insert_Some.
    intros [[_ ->]|[? A]] [[_ E]|[? B]]; try (destruct Hv; fail); [subst; destruct Hv|eauto].
Qed.
Lemma wf_delete d h n k : wf d h n -> wf (delete k d) h n.
Proof.
  intros [H1 H2 H3 H4]. split; auto.
  - intros k' l. rewrite lookup_delete_Some. intros [_ H]. eauto.
  - intros k1 k2 l. rewrite !lookup_delete_Some. intros [_ A] [_ B]. eauto.
Qed.
Lemma wf_heap d h n l o : is_Some (h !! l) -> flat o -> wf d h n -> wf d (<[l:=o]> h) n.
Proof.
  intros Hl Ho [H1 H2 H3 H4]. split; auto.
  - intros k l' H. destruct (decide (l' = l)) as [->|]; [rewrite lookup_insert; eauto|rewrite lookup_insert_ne; eauto].
  - intros l' H. destruct (decide (l' = l)) as [->|]; [auto|rewrite lookup_insert_ne in H; auto].
  - intros l' o' f v. rewrite lookup_insert_Some. intros [[_ <-]|[_ H]]; [apply Ho|eauto].
Qed.
Lemma wf_new d h n k o : flat o -> wf d h n -> wf (<[k:=VHash n]> d) (<[n:=o]> h) (Pos.succ n).
Proof.
  intros Ho [H1 H2 H3 H4].
  assert (Hn : h !! n = None).
  { destruct (h !! n) eqn:E; [|reflexivity]. exfalso. apply (Pos.lt_irrefl n), H3. rewrite E. eauto. }
  assert (Hd : forall k', d !! k' <> Some (VHash n)).
  { intros k' E. destruct (H1 _ _ E) as [o' E']. congruence. }
  split.
  - intros k' l. rewrite lookup_insert_Some. intros [[_ E]|[_ E]].
    + inversion E; subst. rewrite lookup_insert. eauto.
    + destruct (decide (l = n)) as [->|]; [destruct (Hd _ E)|]. rewrite lookup_insert_ne; eauto.
  - intros k1 k2 l. rewrite !lookup_insert_Some.
    intros [[<- A]|[? A]] [[<- B]|[? B]]; auto.
    + inversion A; subst. destruct (Hd _ B).
    + inversion B; subst. destruct (Hd _ A).
    + eauto.
  - intros l [o' E]. rewrite lookup_insert_Some in E. destruct E as [[<- _]|[_ E]]; [lia|].
    assert (l < n)%positive by eauto. lia.
  - intros l o' f v. rewrite lookup_insert_Some. intros [[_ <-]|[_ H]]; [apply Ho|eauto].
Qed.
Lemma wf_empty h n : (forall l, is_Some (h !! l) -> (l < n)%positive) ->
  (forall l o f v, h !! l = Some o -> h_map o !! f = Some v -> scalar v) -> wf ∅ h n.
Proof. split; auto; intros *; rewrite lookup_empty; discriminate. Qed.

Lemma flat_set o f v : flat o -> flat (o_set o f v).
Proof.
  intros H f' x. simpl. rewrite lookup_insert_Some. intros [[_ <-]|[_ E]]; [apply try_scalar|eauto].
Qed.
Lemma flat_insert m n n' f v : scalar v -> flat (HObj m n) -> flat (HObj (<[f:=v]> m) n').
Proof. intros Hv H f' x. simpl. rewrite lookup_insert_Some. intros [[_ <-]|[_ E]]; [auto|eapply H, E]. Qed.
Lemma flat_len m n n' : flat (HObj m n) -> flat (HObj m n').
Proof. exact (fun H => H). Qed.
Lemma flat_delete m n f : flat (HObj m n) -> flat (HObj (delete f m) n).
Proof. intros H f' x. simpl. rewrite lookup_delete_Some. intros [_ E]. eapply H, E. Qed.
Lemma flat_empty : flat empty_hobj.
Proof. intros f v. simpl. rewrite lookup_empty. discriminate. Qed.

(** cells *)
Lemma cellat_insert d h k v : scalar v -> cellat (<[k:=v]> d) h k = Some (CV v).
Proof. intros. unfold cellat. rewrite lookup_insert. simpl. destruct v; simpl in *; tauto || reflexivity. Qed.
Lemma cellat_insert_ne d h k k' v : k' <> k -> cellat (<[k:=v]> d) h k' = cellat d h k'.
Proof. intros. unfold cellat. rewrite lookup_insert_ne; auto. Qed.
Lemma cellat_delete d h k : cellat (delete k d) h k = None.
Proof. unfold cellat. rewrite lookup_delete. reflexivity. Qed.
Lemma cellat_delete_ne d h k k' : k' <> k -> cellat (delete k d) h k' = cellat d h k'.
Proof. intros. unfold cellat. rewrite lookup_delete_ne; auto. Qed.
Lemma cellat_None d h k : d !! k = None -> cellat d h k = None.
Proof. intros E. unfold cellat. rewrite E. reflexivity. Qed.
Lemma cellat_scalar d h k v : d !! k = Some v -> scalar v -> cellat d h k = Some (CV v).
Proof. intros E H. unfold cellat. rewrite E. simpl. destruct v; simpl in *; tauto || reflexivity. Qed.
Lemma cellat_hash d h k l o : d !! k = Some (VHash l) -> h !! l = Some o -> cellat d h k = Some (CH o).
Proof. intros E H. unfold cellat. rewrite E. simpl. rewrite H. reflexivity. Qed.
Lemma cellat_heap d h n k l o : wf d h n -> d !! k = Some (VHash l) -> cellat d (<[l:=o]> h) k = Some (CH o).
Proof. intros _ E. unfold cellat. rewrite E. simpl. rewrite lookup_insert. reflexivity. Qed.
Lemma cellat_heap_ne d h n k k' l o : wf d h n -> d !! k = Some (VHash l) -> k' <> k ->
  cellat d (<[l:=o]> h) k' = cellat d h k'.
Proof.
  intros W E Hk. unfold cellat. destruct (d !! k') as [v|] eqn:E'; [|reflexivity]. simpl.
  destruct v; try reflexivity. simpl.
  assert (l0 <> l) by (intros ->; apply Hk; eapply wf_inj; eauto).
  rewrite lookup_insert_ne; auto.
Qed.
Lemma cellat_new d h n k o : cellat (<[k:=VHash n]> d) (<[n:=o]> h) k = Some (CH o).
Proof. unfold cellat. rewrite lookup_insert. simpl. rewrite lookup_insert. reflexivity. Qed.
Lemma cellat_new_ne d h n k k' o : wf d h n -> k' <> k ->
  cellat (<[k:=VHash n]> d) (<[n:=o]> h) k' = cellat d h k'.
Proof.
  intros W Hk. rewrite cellat_insert_ne by auto. unfold cellat.
  destruct (d !! k') as [v|] eqn:E'; [|reflexivity]. simpl.
  destruct v; try reflexivity. simpl.
  assert (l <> n). { intros ->. destruct (wf_ptr _ _ _ W _ _ E') as [o' E]. apply (Pos.lt_irrefl n). apply (wf_next _ _ _ W). eauto. }
  rewrite lookup_insert_ne; auto.
Qed.
