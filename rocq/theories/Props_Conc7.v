(** * Props_Conc7: calls on several keys are calls on one key, one after the other *)
From stdpp Require Import gmap list.
From Verif Require Import Base GoFloat CacheModel CacheSpec CacheConc ConcLin.

(** The calls on one key a call consists of, and its reply in terms of theirs. *)
Definition parts (c : call) : list call :=
  match c with
  | CMSet kv => map (fun p => CMSet [p]) kv
  | CMSetNX kv => map (fun p => CMSetNX [p]) kv
  | CMGet ks => map (fun k => CMGet [k]) ks
  | CExists ks => map (fun k => CExists [k]) ks
  | c => [c]
  end.
Definition int_of (r : reply) : Z := match r with RInt (n, _) => n | _ => 0 end.
Definition slots_of (r : reply) : list slot := match r with RSlots (l, _) => l | _ => [] end.
Definition whole (c : call) (rs : list reply) : reply :=
  match c with
  | CMSet _ => RStr (bs "OK", None)
  | CMSetNX _ | CExists _ => RInt (foldr Z.add 0 (map int_of rs), None)
  | CMGet _ => RSlots (concat (map slots_of rs), None)
  | _ => match rs with r :: _ => r | [] => RUnit end
  end.

(** [nested B m]: the list [B] is a history (outer events) with a second history (inner events) inside: every call of the outer
    one contains, between its invocation and its return, its parts in order, each returned before the next, and its reply is made of
    theirs.  [m] tells for every goroutine in a call its parts still to come, whether the first of them has begun, and the replies so
    far. *)
Inductive bitem := Outer (e : event) | Inner (e : event).
Inductive nested : list bitem -> gmap nat (call * list call * bool * list reply) -> Prop :=
| n_nil : nested [] ∅
| n_tick B m t : nested B m -> nested (B ++ [Outer (ETick t); Inner (ETick t)]) m
| n_inv B m i c : nested B m -> m !! i = None -> nested (B ++ [Outer (EInv i c)]) (<[i := (c, parts c, false, [])]> m)
| n_begin B m i c d todo rs : nested B m -> m !! i = Some (c, d :: todo, false, rs) ->
    nested (B ++ [Inner (EInv i d)]) (<[i := (c, d :: todo, true, rs)]> m)
| n_end B m i c d todo rs r : nested B m -> m !! i = Some (c, d :: todo, true, rs) ->
    nested (B ++ [Inner (ERet i r)]) (<[i := (c, todo, false, rs ++ [r])]> m)
| n_ret B m i c rs : nested B m -> m !! i = Some (c, [], false, rs) ->
    nested (B ++ [Outer (ERet i (whole c rs))]) (delete i m).
Definition outer (B : list bitem) : list event := omap (fun x => match x with Outer e => Some e | _ => None end) B.
Definition inner (B : list bitem) : list event := omap (fun x => match x with Inner e => Some e | _ => None end) B.

(** ** Programs up to the representation of their continuations *)
Fixpoint peq {R} (p q : prog R) : Prop :=
  match p, q with
  | Ret a, Ret b => a = b
  | Step f, Step g => forall w, match f w, g w with
                                | Go w1 p1, Go w2 q1 => w1 = w2 /\ peq p1 q1
                                | Blocked, Blocked | Panic, Panic => True
                                | _, _ => False
                                end
  | _, _ => False
  end.
Lemma peq_refl {R} (p : prog R) : peq p p.
Proof.
  revert p. fix IH 1. intros [r|f]; [reflexivity|]. cbn. intros w. destruct (f w) as [w1 p1| |]; auto.
Qed.
Lemma peq_sym {R} (p : prog R) : forall q, peq p q -> peq q p.
Proof.
  revert p. fix IH 1. intros [r|f] [r'|g]; cbn; auto; try tauto. intros H w. specialize (H w).
  destruct (f w) as [w1 p1| |], (g w) as [w2 q1| |]; auto. destruct H as [-> H]. auto.
Qed.
Lemma peq_trans {R} (p : prog R) : forall q r, peq p q -> peq q r -> peq p r.
Proof.
  revert p. fix IH 1. intros [a|f] [b|g] [c|h]; cbn; try tauto; [congruence|]. intros H1 H2 w. specialize (H1 w). specialize (H2 w).
  destruct (f w) as [w1 p1| |], (g w) as [w2 q1| |], (h w) as [w3 r1| |]; try tauto. destruct H1 as [-> H1], H2 as [-> H2]. split; [reflexivity|]. eapply IH; eauto.
Qed.
Lemma pbind_cong {A B} (p : prog A) : forall q (k l : A -> prog B), peq p q -> (forall x, peq (k x) (l x)) -> peq (pbind p k) (pbind q l).
Proof.
  revert p. fix IH 1. intros [a|f] [b|g] k l; cbn; try tauto; [intros ->; auto|]. intros H Hk w. specialize (H w).
  destruct (f w) as [w1 p1| |], (g w) as [w2 q1| |]; auto. destruct H as [-> H]. split; [reflexivity|]. apply IH; auto.
Qed.
Lemma pbind_assoc {A B C} (p : prog A) : forall (k : A -> prog B) (l : B -> prog C), peq (pbind (pbind p k) l) (pbind p (fun x => pbind (k x) l)).
Proof.
  revert p. fix IH 1. intros [a|f] k l; cbn; [apply peq_refl|]. intros w. destruct (f w) as [w1 p1| |]; auto.
Qed.
Lemma pbind_ret {A} (p : prog A) : peq p (pbind p Ret).
Proof. revert p. fix IH 1. intros [a|f]; cbn; [reflexivity|]. intros w. destruct (f w) as [w1 p1| |]; auto. Qed.

(** a call, from the replies [rs] of its first parts and the parts still to come *)
Fixpoint pseq (c : call) (rs : list reply) (todo : list call) : prog reply :=
  match todo with
  | [] => Ret (whole c rs)
  | d :: t => pbind (call_prog d) (fun r => pseq c (rs ++ [r]) t)
  end.
Definition total_of (rs : list reply) : Z := foldr Z.add 0 (map int_of rs).
Lemma total_snoc rs r : total_of (rs ++ [r]) = total_of rs + int_of r.
Proof. unfold total_of. induction rs as [|x rs IH]; cbn in *; [lia|]. rewrite IH. lia. Qed.
Lemma mset_parts kv0 kv : forall rs, peq (call_prog (CMSet kv)) (pseq (CMSet kv0) rs (map (fun p => CMSet [p]) kv)).
Proof.
  induction kv as [|[k v] kv IH]; intros rs; [reflexivity|]. cbn. intros w. destruct (w_data w); [|exact I]. split; [reflexivity|]. apply IH.
Qed.
Lemma msetnx_parts kv0 kv : forall rs, peq (pmap (fun n => RInt (noerr n)) (msetnx_loop kv (total_of rs))) (pseq (CMSetNX kv0) rs (map (fun p => CMSetNX [p]) kv)).
Proof.
  induction kv as [|[k v] kv IH]; intros rs; [reflexivity|]. cbn. intros w. destruct (w_data w) as [d|]; [|exact I].
  destruct (d !! k) as [x|]; (split; [reflexivity|]); cbn [snd pbind].
  - specialize (IH (rs ++ [RInt (noerr 0)])). rewrite total_snoc in IH. cbn [int_of noerr] in IH. rewrite Z.add_0_r in IH. exact IH.
  - specialize (IH (rs ++ [RInt (noerr 1)])). rewrite total_snoc in IH. exact IH.
Qed.
Lemma exists_parts ks0 ks : forall rs, peq (pmap (fun n => RInt (noerr n)) (exists_loop ks (total_of rs))) (pseq (CExists ks0) rs (map (fun k => CExists [k]) ks)).
Proof.
  induction ks as [|k ks IH]; intros rs; [reflexivity|]. cbn. intros w. destruct (w_data w) as [d|]; [|exact I].
  split; [reflexivity|]. destruct (d !! k) as [x|]; cbn [pbind].
  - specialize (IH (rs ++ [RInt (noerr 1)])). rewrite total_snoc in IH. exact IH.
  - specialize (IH (rs ++ [RInt (noerr 0)])). rewrite total_snoc in IH. cbn [int_of noerr] in IH. rewrite Z.add_0_r in IH. exact IH.
Qed.
Lemma mget_parts ks0 ks : forall rs, peq (pbind (mget_loop ks) (fun l => Ret (RSlots (noerr (concat (map slots_of rs) ++ l))))) (pseq (CMGet ks0) rs (map (fun k => CMGet [k]) ks)).
Proof.
  induction ks as [|k ks IH]; intros rs; [cbn; rewrite app_nil_r; reflexivity|]. cbn [mget_loop map pseq].
  eapply peq_trans; [apply pbind_assoc|]. eapply peq_trans.
  2: { apply pbind_cong; [|intros x; apply peq_refl]. cbn [call_prog]. unfold pmap, m_mget. cbn [mget_loop]. apply peq_sym, pbind_assoc. }
  eapply peq_trans; [|apply peq_sym, pbind_assoc]. apply pbind_cong; [apply peq_refl|]. intros v. cbn [pbind].
  eapply peq_trans; [apply pbind_assoc|]. eapply peq_trans; [|apply (IH (rs ++ [RSlots (noerr [slot_of v])]))]. apply pbind_cong; [apply peq_refl|]. intros l. cbn [pbind].
  rewrite map_app, concat_app. cbn. rewrite <- app_assoc. reflexivity.
Qed.
Lemma parts_prog c : peq (call_prog c) (pseq c [] (parts c)).
Proof.
  destruct c; try (apply pbind_ret).
  - apply mset_parts. - apply (msetnx_parts kv kv []). - apply (mget_parts ks ks []). - apply (exists_parts ks ks []).
Qed.

(** ** The simulation *)
Definition sim1 (p : option (prog reply)) (q : option (prog reply)) (x : option (call * list call * bool * list reply)) : Prop :=
  match p, x with
  | None, None => q = None
  | Some p, Some (c, todo, false, rs) => q = None /\ peq p (pseq c rs todo)
  | Some p, Some (c, todo, true, rs) => exists q' d t, todo = d :: t /\ q = Some q' /\ peq p (pbind q' (fun r => pseq c (rs ++ [r]) t))
  | _, _ => False
  end.
Record good (w0 : world) (c : conf) (evs : list event) (c' : conf) (B : list bitem) (m : gmap nat (call * list call * bool * list reply)) : Prop := Good {
  g_run : exists s', cexec s' (start w0) = Some (c', inner B);
  g_nest : nested B m;
  g_out : outer B = evs;
  g_w : c_w c' = c_w c;
  g_sim : forall i, sim1 (c_th c !! i) (c_th c' !! i) (m !! i) }.

Lemma run_more w0 s' c' B a c2 e : cexec s' (start w0) = Some (c', inner B) -> cstep a c' = Some (c2, e) ->
  exists s2, cexec s2 (start w0) = Some (c2, inner B ++ e).
Proof. intros E H. exists (s' ++ [a]). rewrite cexec_app, E. cbn. rewrite H. rewrite app_nil_r. reflexivity. Qed.
Lemma inner_app A B : inner (A ++ B) = inner A ++ inner B. Proof. apply omap_app. Qed.
Lemma outer_app A B : outer (A ++ B) = outer A ++ outer B. Proof. apply omap_app. Qed.

Lemma sim_insert (th th' : gmap nat (prog reply)) (m : gmap nat (call * list call * bool * list reply)) i q x :
  (forall j, sim1 (th !! j) (th' !! j) (m !! j)) -> sim1 (th !! i) (Some q) (Some x) -> forall j, sim1 (th !! j) (<[i := q]> th' !! j) (<[i := x]> m !! j).
Proof. intros H Hi j. destruct (decide (j = i)) as [->|Hn]; [rewrite !lookup_insert; exact Hi|rewrite !lookup_insert_ne by auto; apply H]. Qed.
Lemma sim_delete (th th' : gmap nat (prog reply)) (m : gmap nat (call * list call * bool * list reply)) i x :
  (forall j, sim1 (th !! j) (th' !! j) (m !! j)) -> sim1 (th !! i) None (Some x) -> forall j, sim1 (th !! j) (delete i th' !! j) (<[i := x]> m !! j).
Proof. intros H Hi j. destruct (decide (j = i)) as [->|Hn]; [rewrite lookup_delete, lookup_insert; exact Hi|rewrite lookup_delete_ne, lookup_insert_ne by auto; apply H]. Qed.

(** the next part begins *)
Lemma begin_part w0 c evs c' B m i p cl d t rs : good w0 c evs c' B m -> c_th c !! i = Some p -> m !! i = Some (cl, d :: t, false, rs) ->
  exists c2, good w0 c evs c2 (B ++ [Inner (EInv i d)]) (<[i := (cl, d :: t, true, rs)]> m) /\ c_th c2 !! i = Some (call_prog d).
Proof.
  intros [[s' Hr] Hn Ho Hw Hs] Hp Hm. pose proof (Hs i) as Hi. rewrite Hp, Hm in Hi. destruct Hi as [Hq Hpe].
  exists (Conf (c_w c') (<[i := call_prog d]> (c_th c'))). split; [|cbn; apply lookup_insert]. split.
  - rewrite inner_app. eapply (run_more w0 s' c' B (AInv i d)); [exact Hr|]. cbn. rewrite Hq. reflexivity.
  - econstructor; eauto.
  - rewrite outer_app, Ho. apply app_nil_r.
  - exact Hw.
  - cbn [c_th]. apply sim_insert; [exact Hs|]. rewrite Hp. exists (call_prog d), d, t. auto.
Qed.
(** a part returns *)
Lemma end_part w0 c evs c' B m i p cl d t rs r : good w0 c evs c' B m -> c_th c !! i = Some p -> m !! i = Some (cl, d :: t, true, rs) -> c_th c' !! i = Some (Ret r) ->
  exists c2, good w0 c evs c2 (B ++ [Inner (ERet i r)]) (<[i := (cl, t, false, rs ++ [r])]> m).
Proof.
  intros [[s' Hr] Hn Ho Hw Hs] Hp Hm Hq. pose proof (Hs i) as Hi. rewrite Hp, Hm in Hi. destruct Hi as (q & d' & t' & [= <- <-] & Hq' & Hpe).
  rewrite Hq in Hq'. injection Hq' as <-. cbn in Hpe.
  exists (Conf (c_w c') (delete i (c_th c'))). split.
  - rewrite inner_app. eapply (run_more w0 s' c' B (ARet i)); [exact Hr|]. cbn. rewrite Hq. reflexivity.
  - econstructor; eauto.
  - rewrite outer_app, Ho. apply app_nil_r.
  - exact Hw.
  - cbn [c_th]. apply sim_delete; [exact Hs|]. rewrite Hp. split; [reflexivity|exact Hpe].
Qed.
(** parts begin and return until the goroutine is about to step, or to return from the whole call *)
Lemma advance todo : forall w0 c evs c' B m i p cl cur rs, good w0 c evs c' B m -> c_th c !! i = Some p -> m !! i = Some (cl, todo, cur, rs) ->
  exists c2 B2 m2 todo2 rs2, good w0 c evs c2 B2 m2 /\
    ((exists g, m2 !! i = Some (cl, todo2, true, rs2) /\ c_th c2 !! i = Some (Step g)) \/ (m2 !! i = Some (cl, [], false, rs2) /\ p = Ret (whole cl rs2))).
Proof.
  induction todo as [|d t IH]; intros w0 c evs c' B m i p cl cur rs Hg Hp Hm.
  - pose proof (g_sim _ _ _ _ _ _ Hg i) as Hi. rewrite Hp, Hm in Hi. destruct cur; [destruct Hi as (? & ? & ? & ? & _); discriminate|]. destruct Hi as [_ Hi].
    exists c', B, m, [], rs. split; [exact Hg|]. right. split; [exact Hm|]. destruct p as [r|f]; [|destruct Hi]. cbn in Hi. subst. reflexivity.
  - assert (Hrun : exists c2 B2 m2 q, good w0 c evs c2 B2 m2 /\ m2 !! i = Some (cl, d :: t, true, rs) /\ c_th c2 !! i = Some q).
    { destruct cur.
      - pose proof (g_sim _ _ _ _ _ _ Hg i) as Hi. rewrite Hp, Hm in Hi. destruct Hi as (q & ? & ? & _ & Hq & _). exists c', B, m, q. auto.
      - destruct (begin_part _ _ _ _ _ _ _ _ _ _ _ _ Hg Hp Hm) as (c2 & Hg2 & Hq). eexists c2, _, _, _. split; [exact Hg2|]. split; [apply lookup_insert|exact Hq]. }
    destruct Hrun as (c2 & B2 & m2 & q & Hg2 & Hm2 & Hq). destruct q as [r|g].
    + destruct (end_part _ _ _ _ _ _ _ _ _ _ _ _ _ Hg2 Hp Hm2 Hq) as (c3 & Hg3). eapply IH; [exact Hg3|exact Hp|apply lookup_insert].
    + exists c2, B2, m2, (d :: t), rs. split; [exact Hg2|]. left. exists g. auto.
Qed.

Lemma good_step w0 c evs a c1 e : cstep a c = Some (c1, e) -> (exists c' B m, good w0 c evs c' B m) -> exists c' B m, good w0 c1 (evs ++ e) c' B m.
Proof.
  intros E (c' & B & m & Hg). destruct a as [i cl|i|i|t]; cbn in E.
  - destruct (c_th c !! i) eqn:Hi; [discriminate|]. injection E as <- <-. destruct Hg as [[s' Hr] Hn Ho Hw Hs]. pose proof (Hs i) as Hs1. rewrite Hi in Hs1.
    destruct (m !! i) eqn:Hm; [destruct Hs1|]. exists c', (B ++ [Outer (EInv i cl)]), (<[i := (cl, parts cl, false, [])]> m). split.
    + exists s'. rewrite inner_app, app_nil_r. exact Hr.
    + constructor; auto.
    + rewrite outer_app, Ho. reflexivity.
    + exact Hw.
    + cbn [c_th]. intros j. destruct (decide (j = i)) as [->|Hne]; [rewrite !lookup_insert; split; [exact Hs1|apply parts_prog]|rewrite !lookup_insert_ne by auto; apply Hs].
  - destruct (c_th c !! i) as [[r|f]|] eqn:Hi; try discriminate. destruct (f (c_w c)) as [w' p'| |] eqn:Ef; try discriminate. injection E as <- <-.
    destruct (m !! i) as [[[[cl todo] cur] rs]|] eqn:Hm; [|pose proof (g_sim _ _ _ _ _ _ Hg i) as Hs1; rewrite Hi, Hm in Hs1; destruct Hs1].
    destruct (advance _ _ _ _ _ _ _ _ _ _ _ _ Hg Hi Hm) as (c2 & B2 & m2 & todo2 & rs2 & Hg2 & [(g & Hm2 & Hq)|[_ Hx]]); [|discriminate].
    destruct Hg2 as [[s' Hr] Hn Ho Hw Hs]. pose proof (Hs i) as Hs1. rewrite Hi, Hm2 in Hs1. destruct Hs1 as (q & d & t & -> & Hq' & Hpe). rewrite Hq in Hq'. injection Hq' as <-.
    cbn in Hpe. rewrite <- Hw in Ef. specialize (Hpe (c_w c2)). rewrite Ef in Hpe. destruct (g (c_w c2)) as [w2 q2| |] eqn:Eg; try (destruct Hpe; fail). destruct Hpe as [-> Hpe].
    exists (Conf w2 (<[i := q2]> (c_th c2))), B2, m2. split.
    + destruct (run_more w0 s' c2 B2 (ARun i) (Conf w2 (<[i := q2]> (c_th c2))) []) as [s2 H2]; [exact Hr|cbn; rewrite Hq, Eg; reflexivity|]. exists s2. rewrite H2, app_nil_r. reflexivity.
    + exact Hn.
    + rewrite Ho, app_nil_r. reflexivity.
    + reflexivity.
    + cbn [c_th]. intros j. destruct (decide (j = i)) as [->|Hne]; [rewrite !lookup_insert, Hm2; exists q2, d, t; auto|rewrite !lookup_insert_ne by auto; apply Hs].
  - destruct (c_th c !! i) as [[r|f]|] eqn:Hi; try discriminate. injection E as <- <-.
    destruct (m !! i) as [[[[cl todo] cur] rs]|] eqn:Hm; [|pose proof (g_sim _ _ _ _ _ _ Hg i) as Hs1; rewrite Hi, Hm in Hs1; destruct Hs1].
    destruct (advance _ _ _ _ _ _ _ _ _ _ _ _ Hg Hi Hm) as (c2 & B2 & m2 & todo2 & rs2 & Hg2 & [(g & Hm2 & Hq)|[Hm2 Hx]]).
    { pose proof (g_sim _ _ _ _ _ _ Hg2 i) as Hs1. rewrite Hi, Hm2 in Hs1. destruct Hs1 as (q & d & t & _ & Hq' & Hpe). rewrite Hq in Hq'. injection Hq' as <-. destruct Hpe. }
    injection Hx as ->. destruct Hg2 as [[s' Hr] Hn Ho Hw Hs]. pose proof (Hs i) as Hs1. rewrite Hi, Hm2 in Hs1. destruct Hs1 as [Hq _].
    exists c2, (B2 ++ [Outer (ERet i (whole cl rs2))]), (delete i m2). split.
    + exists s'. rewrite inner_app, app_nil_r. exact Hr.
    + econstructor; eauto.
    + rewrite outer_app, Ho. reflexivity.
    + exact Hw.
    + cbn [c_th]. intros j. destruct (decide (j = i)) as [->|Hne]; [rewrite !lookup_delete; exact Hq|rewrite !lookup_delete_ne by auto; apply Hs].
  - destruct (Z.leb_spec (w_now (c_w c)) t) as [Hle|]; [|discriminate]. injection E as <- <-. destruct Hg as [[s' Hr] Hn Ho Hw Hs].
    exists (Conf (set_now (c_w c') t) (c_th c')), (B ++ [Outer (ETick t); Inner (ETick t)]), m. split.
    + rewrite inner_app. eapply (run_more w0 s' c' B (ATick t)); [exact Hr|]. cbn. rewrite Hw. destruct (Z.leb_spec (w_now (c_w c)) t); [reflexivity|lia].
    + constructor; auto.
    + rewrite outer_app, Ho. reflexivity.
    + cbn. rewrite Hw. reflexivity.
    + exact Hs.
Qed.
Lemma good_exec w0 s : forall c evs, cexec s (start w0) = Some (c, evs) -> exists c' B m, good w0 c evs c' B m.
Proof.
  induction s as [|a s IH] using rev_ind; intros c evs E.
  - injection E as <- <-. exists (start w0), [], ∅. split; [exists []; reflexivity|constructor|reflexivity|reflexivity|]. intros i. cbn. rewrite !lookup_empty. reflexivity.
  - rewrite cexec_app in E. destruct (cexec s (start w0)) as [[c1 e1]|] eqn:E1; [|discriminate]. destruct (cexec [a] c1) as [[c2 e2]|] eqn:E2; [|discriminate]. injection E as <- <-.
    cbn in E2. destruct (cstep a c1) as [[c3 e3]|] eqn:E3; [|discriminate]. injection E2 as <- <-. rewrite app_nil_r. eapply good_step; eauto.
Qed.

(** ** C172 *)
Theorem C172_parts_one_after_the_other w0 s c evs : cexec s (start w0) = Some (c, evs) ->
  exists s' c' B m, cexec s' (start w0) = Some (c', inner B) /\ outer B = evs /\ nested B m /\ c_w c' = c_w c /\ (c_th c = ∅ -> c_th c' = ∅ /\ m = ∅).
Proof.
  intros E. destruct (good_exec w0 s c evs E) as (c' & B & m & [[s' Hr] Hn Ho Hw Hs]). exists s', c', B, m. repeat (split; auto).
  - apply map_empty. intros i. specialize (Hs i). rewrite H, lookup_empty in Hs. destruct (m !! i); [destruct Hs|exact Hs].
  - apply map_empty. intros i. specialize (Hs i). rewrite H, lookup_empty in Hs. destruct (m !! i); [destruct Hs|reflexivity].
Qed.
Example C172_nonvacuous :
  let s := [AInv 1 (CMSet [(bs "a", bs "x"); (bs "b", bs "y")]); ARun 1; AInv 2 (CMSetNX [(bs "a", bs "u"); (bs "b", bs "v")]); ARun 2; ARun 2; ARet 2; ARun 1; ARet 1] in
  match cexec s (start (new_world 0)) with
  | Some (_, evs) => evs = [EInv 1 (CMSet [(bs "a", bs "x"); (bs "b", bs "y")]); EInv 2 (CMSetNX [(bs "a", bs "u"); (bs "b", bs "v")]); ERet 2 (RInt (1, None)); ERet 1 (RStr (bs "OK", None))]
  | None => False end /\
  whole (CMSetNX [(bs "a", bs "u"); (bs "b", bs "v")]) [RInt (0, None); RInt (1, None)] = RInt (1, None).
Proof. vm_compute. auto. Qed.
