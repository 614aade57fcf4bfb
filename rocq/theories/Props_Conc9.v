(** * Props_Conc9: MSet and MSetNX, which take no lock, among other calls *)
From stdpp Require Import gmap list.
From Verif Require Import Base GoFloat CacheModel CacheSpec CacheConc.
From Verif Require Import CacheAbs CacheRefine CacheRefineH CacheMain CacheLib ConcLin ConcSafe ConcRead Props_Conc Props_Conc7 Props_Conc8.

(** ** Calls with one step that decides everything, whoever holds the lock *)
Definition unl (w : world) : world := set_lock w false 0.
Fixpoint idle (r : reply) (p : prog reply) : Prop :=
  match p with
  | Ret x => x = r
  | Step f => forall w d, exp0 w d -> match f w with Go w' p' => unl w' = unl w /\ idle r p' | _ => True end
  end.
Fixpoint one_shot (c : call) (p : prog reply) : Prop :=
  match p with
  | Ret _ => False
  | Step f => forall w d, exp0 w d ->
      match f w with
      | Go w' p' => (unl w' = unl w /\ one_shot c p') \/
          (exists r d', exp0 w' d' /\ w_now w' = w_now w /\ eval (call_prog c) (unl w) = Done (unl w') r /\ idle r p')
      | _ => True
      end
  end.
(** The calls of one key that write without looking, or look without writing. *)
Definition blind (c : call) : Prop :=
  match c with
  | CSet _ _ | CSetNX _ _ | CGet _ | CStrLen _ | CGetRange _ _ _ | CType _ | CFlush => True
  | CMSet [_] | CMSetNX [_] | CMGet [_] | CExists [_] => True
  | _ => False
  end.
Ltac lk := cbn; let w1 := fresh "w1" in let d1 := fresh "d1" in intros w1 d1 _; cbn; match goal with |- context [if ?b then _ else _] => destruct b; try exact I end; left; (split; [reflexivity|]).
Ltac idl := repeat first
  [ reflexivity
  | match goal with |- idle _ _ => cbn end
  | match goal with |- forall _ _, exp0 _ _ -> _ => intros ? ? [? ?]; cbn end
  | match goal with H : w_exp ?w = Some ∅ |- context [w_exp ?w] => rewrite H, ?lookup_empty; cbn; split; [try reflexivity|] end
  | match goal with H : w_exp ?w = Some ∅ |- unl (set_exp ?w ∅) = unl ?w /\ _ => split; [unfold unl, set_lock, set_exp; cbn; rewrite H; reflexivity|] end
  | match goal with |- context [if w_writer ?w then _ else _] => destruct (w_writer w); [|exact I]; cbn; split; [reflexivity|] end
  | match goal with |- context [match w_readers ?w with _ => _ end] => destruct (w_readers w); [exact I|]; cbn; split; [reflexivity|] end ].
Ltac see k := cbn; let w := fresh "w" in let d := fresh "d" in let He := fresh "He" in let Hd := fresh "Hd" in let Ek := fresh "Ek" in
  intros w d [He Hd]; cbn; rewrite Hd; cbn; destruct (d !! k) eqn:Ek; cbn; right; eexists _, d; (split; [split; assumption|]); (split; [reflexivity|]);
  (split; [cbn; rewrite ?Hd; cbn; rewrite ?Ek; cbn; rewrite ?He, ?lookup_empty; cbn; reflexivity|idl]).
Lemma blind_shot c : blind c -> one_shot c (call_prog c).
Proof.
  intros H. destruct c as [| | | | | | | | | | | | | | |kv|kv|ks| | |ks| | | | | | | | | | | | | | | |]; cbn in H; try contradiction.
  - lk. intros w d [He Hd]. cbn. rewrite ?Hd. cbn. right. eexists (RStr (bs "OK", None)), _. split; [split; [exact He|reflexivity]|]. split; [reflexivity|]. split; [|idl].
    cbn. rewrite ?Hd. reflexivity.
  - lk. intros w d [He Hd]. cbn. rewrite ?Hd. cbn. destruct (d !! k) eqn:Ek; cbn; right; eexists (RInt (_, None)), _; (split; [split; [exact He|try exact Hd; try reflexivity]|]); (split; [reflexivity|]);
    (split; [cbn; rewrite ?Hd; cbn; rewrite ?Ek; reflexivity|idl]).
  - lk. see k.
  - lk. see k.
  - lk. see k.
  - destruct kv as [|[k v] [|]]; try contradiction. cbn. intros w d [He Hd]. cbn. rewrite ?Hd. cbn. right. eexists (RStr (bs "OK", None)), _. split; [split; [exact He|reflexivity]|]. split; [reflexivity|]. split; [|idl].
    rewrite ?Hd. reflexivity.
  - destruct kv as [|[k v] [|]]; try contradiction. cbn. intros w d [He Hd]. cbn. rewrite ?Hd. cbn. destruct (d !! k) eqn:Ek; cbn; right; eexists (RInt (_, None)), _; (split; [split; [exact He|try exact Hd; try reflexivity]|]); (split; [reflexivity|]);
    (split; [rewrite ?Hd; cbn; rewrite ?Ek; reflexivity|idl]).
  - destruct ks as [|k [|]]; try contradiction. see k.
  - lk. intros w d [He Hd]. cbn. right. eexists RUnit, _. split; [split; [exact He|reflexivity]|]. split; [reflexivity|]. split; [|idl].
    unfold unl, set_lock, set_exp, set_data. cbn. rewrite He. reflexivity.
  - destruct ks as [|k [|]]; try contradiction. see k.
  - see k.
Qed.

(** ** Every execution of such calls has a serial order *)
Definition thst1 (now : Z) (p : option (prog reply)) (s : option tst) : Prop :=
  match p, s with
  | None, None => True
  | Some p, Some (Called c t0) => t0 <= now /\ one_shot c p
  | Some p, Some (Decided r) => idle r p
  | _, _ => False
  end.
Record sim1 (c : conf) (m : gmap nat tst) (last : Z) (ws : world) : Prop := Sim1 {
  s1_exp : exists d, exp0 (c_w c) d;
  s1_last : last <= w_now (c_w c);
  s1_same : unl (c_w c) = set_now ws (w_now (c_w c));
  s1_th : forall i, thst1 (w_now (c_w c)) (c_th c !! i) (m !! i) }.
Lemma unl_same w w' : unl w' = unl w -> w_now w' = w_now w /\ w_exp w' = w_exp w /\ w_data w' = w_data w.
Proof. intros H. repeat split; [exact (f_equal w_now H)|exact (f_equal w_exp H)|exact (f_equal w_data H)]. Qed.
Lemma sim1_step w0 A c m last ws a c' e :
  lin_ok w0 A m (w_now (c_w c)) last ws -> sim1 c m last ws -> cstep a c = Some (c', e) -> calls_in blind e ->
  exists B m' last' ws', lin_ok w0 (A ++ B) m' (w_now (c_w c')) last' ws' /\ observed B = e /\ sim1 c' m' last' ws'.
Proof.
  intros HA [[d Hexp] Hlast Hsame Hth] E Hin. destruct a as [i cl|i|i|t]; cbn in E.
  - destruct (c_th c !! i) eqn:Ei; [discriminate|]. injection E as <- <-.
    pose proof (Hth i) as Hi. rewrite Ei in Hi. destruct (m !! i) as [[]|] eqn:Em; cbn in Hi; try contradiction.
    exists [IEv (EInv i cl)], (<[i := Called cl (w_now (c_w c))]> m), last, ws. split; [apply lo_inv; auto|]. split; [reflexivity|].
    constructor; cbn [c_w c_th]; eauto. intros j. destruct (decide (j = i)) as [->|Hne]; [|rewrite !lookup_insert_ne by auto; apply Hth].
    rewrite !lookup_insert. cbn [thst1]. split; [lia|]. apply blind_shot, (Hin i). left.
  - destruct (c_th c !! i) as [[r|f]|] eqn:Ei; try discriminate. destruct (f (c_w c)) as [w' p'| |] eqn:Ef; try discriminate. injection E as <- <-.
    pose proof (Hth i) as Hi. rewrite Ei in Hi.
    (* a step that changes the lock at most *)
    assert (Hsil : forall s, m !! i = Some s -> unl w' = unl (c_w c) -> thst1 (w_now (c_w c)) (Some p') (Some s) ->
       exists B m' last' ws', lin_ok w0 (A ++ B) m' (w_now w') last' ws' /\ observed B = [] /\ sim1 (Conf w' (<[i := p']> (c_th c))) m' last' ws').
    { intros s Em Hu Hs. destruct (unl_same _ _ Hu) as (U1 & U2 & U3). exists [], m, last, ws. rewrite app_nil_r, U1. split; [exact HA|]. split; [reflexivity|].
      constructor; cbn [c_w c_th]; rewrite ?U1; auto.
      - exists d. split; [rewrite U2|rewrite U3]; apply Hexp.
      - rewrite Hu. exact Hsame.
      - intros j. destruct (decide (j = i)) as [->|Hne]; [|rewrite lookup_insert_ne by auto; apply Hth]. rewrite lookup_insert, Em. exact Hs. }
    destruct (m !! i) as [[cl t0|r]|] eqn:Em; cbn [thst1] in Hi; [| |contradiction].
    + destruct Hi as [Ht Hi]. cbn in Hi. specialize (Hi _ _ Hexp). rewrite Ef in Hi. destruct Hi as [[Hu Hi]|(r & d' & He' & Hn & Hev & Hi)].
      * eapply Hsil; eauto. cbn. auto.
      * exists [ILin i (w_now (c_w c)) cl r], (<[i := Decided r]> m), (w_now (c_w c)), (unl w'). cbn [c_w]. rewrite Hn. split; [|split; [reflexivity|]].
        -- eapply lo_lin; eauto; try lia. rewrite run_call_at by exact Hsame. exact Hev.
        -- constructor; cbn [c_w c_th]; rewrite ?Hn; eauto; try lia.
           ++ rewrite <- Hn. reflexivity.
           ++ intros j. destruct (decide (j = i)) as [->|Hne]; [|rewrite !lookup_insert_ne by auto; apply Hth]. rewrite !lookup_insert. exact Hi.
    + cbn in Hi. specialize (Hi _ _ Hexp). rewrite Ef in Hi. destruct Hi as [Hu Hi]. eapply Hsil; eauto.
  - destruct (c_th c !! i) as [[r|f]|] eqn:Ei; try discriminate. injection E as <- <-. pose proof (Hth i) as Hi. rewrite Ei in Hi.
    destruct (m !! i) as [[cl t0|r']|] eqn:Em; cbn in Hi; [destruct Hi; contradiction| |contradiction]. subst r'.
    exists [IEv (ERet i r)], (delete i m), last, ws. split; [apply lo_ret; auto|]. split; [reflexivity|].
    constructor; cbn [c_w c_th]; eauto. intros j. destruct (decide (j = i)) as [->|Hne]; [rewrite !lookup_delete; exact I|rewrite !lookup_delete_ne by auto; apply Hth].
  - destruct (Z.leb_spec (w_now (c_w c)) t) as [Ht|]; [|discriminate]. injection E as <- <-.
    exists [IEv (ETick t)], m, last, ws. cbn [c_w w_now set_now]. split; [eapply lo_tick; eauto|]. split; [reflexivity|].
    constructor; cbn [c_w c_th w_now set_now]; eauto; [lia| |].
    + transitivity (set_now (unl (c_w c)) t); [reflexivity|]. rewrite Hsame. reflexivity.
    + intros j. specialize (Hth j). destruct (c_th c !! j), (m !! j) as [[]|]; cbn in *; auto. destruct Hth. split; [lia|assumption].
Qed.

(** ** C174: MSet and MSetNX among other calls

    Full statement: calls of MSet and MSetNX, taken key by key, take effect at one moment each, whatever other calls run.
    Missing: calls that look at a key and then write it. They hold the lock, MSet does not ask for it, and what it wrote in between is
    lost ([C174_lost_refuted]). *)
Lemma blind_serial w0 s c evs :
  ready w0 -> (forall k, deadline w0 k = None) -> calls_in blind evs -> cexec s (start w0) = Some (c, evs) ->
  exists A m last ws, lin_ok w0 A m (w_now (c_w c)) last ws /\ observed A = evs /\
    run_hist (lin_calls A) w0 = Done ws (lin_replies A) /\ (c_th c = ∅ -> m = ∅ /\ same_cache (c_w c) ws).
Proof.
  intros Hr Hd Hc E. pose proof (linv_exec false w0 s c evs Hr (fun _ _ _ H => ltac:(discriminate H)) E) as (h0 & R0 & Hl).
  destruct Hr as [R1 R2 (d & Ed & _) [e Ee] _ _].
  assert (He : e = ∅). { apply map_empty. intros k. specialize (Hd k). unfold deadline in Hd. rewrite Ee in Hd. exact Hd. } subst e.
  assert (H : exists A m last ws, lin_ok w0 A m (w_now (c_w c)) last ws /\ observed A = evs /\ sim1 c m last ws).
  { refine (cexec_inv (fun c evs => calls_in blind evs -> exists A m last ws, lin_ok w0 A m (w_now (c_w c)) last ws /\ observed A = evs /\ sim1 c m last ws)
      s (start w0) c evs _ [] _ E Hc).
    - intros c1 evs1 a c2 e IH Es Hin. apply calls_in_app in Hin as [Hi1 Hi2]. destruct (IH Hi1) as (A & m & last & ws & HA & Hobs & Hsim).
      destruct (sim1_step _ _ _ _ _ _ _ _ _ HA Hsim Es Hi2) as (B & m' & last' & ws' & HB & HoB & Hsim').
      exists (A ++ B), m', last', ws'. split; [exact HB|]. split; [rewrite observed_app; congruence|exact Hsim'].
    - intros _. exists [], ∅, (w_now w0), w0. split; [constructor|]. split; [reflexivity|]. constructor; cbn [c_w c_th start]; [exists d; split; auto|lia| |].
      + rewrite set_now_id. unfold unl, set_lock. destruct w0. cbn in *. subst. reflexivity.
      + intros i. rewrite !lookup_empty. exact I. }
  destruct H as (A & m & last & ws & HA & Ho & [_ _ Hsame Hth]). exists A, m, last, ws. split; [exact HA|]. split; [exact Ho|]. split; [eapply lin_ok_hist; eauto|].
  intros Hem. destruct (linv_idle _ _ _ _ Hl Hem) as [L1 L2]. split.
  - apply map_empty. intros i. specialize (Hth i). rewrite Hem, lookup_empty in Hth. destruct (m !! i) as [[]|]; cbn in Hth; auto; contradiction.
  - unfold same_cache. transitivity (set_now (unl (c_w c)) 0); [|rewrite Hsame; reflexivity]. unfold unl, set_lock. destruct (c_w c). cbn in *. subst. reflexivity.
Qed.
Theorem C174_key_by_key_partial w0 s c evs :
  ready w0 -> (forall k, deadline w0 k = None) -> calls_in (fun cl => Forall blind (parts cl)) evs -> cexec s (start w0) = Some (c, evs) ->
  exists B n A m last ws, nested B n /\ outer B = evs /\ observed A = inner B /\ lin_ok w0 A m (w_now (c_w c)) last ws /\
    run_hist (lin_calls A) w0 = Done ws (lin_replies A) /\ (c_th c = ∅ -> n = ∅ /\ m = ∅ /\ same_cache (c_w c) ws).
Proof.
  intros Hr Hd Hc E. destruct (C172_parts_one_after_the_other w0 s c evs E) as (s' & c' & B & n & E' & Ho & Hn & Hw & Hend).
  rewrite <- Ho in Hc. pose proof (nested_calls_in blind B n Hn Hc) as Hc'.
  destruct (blind_serial w0 s' c' (inner B) Hr Hd Hc' E') as (A & m & last & ws & H1 & H2 & H3 & H4).
  exists B, n, A, m, last, ws. rewrite <- Hw. repeat (split; auto). all: destruct (Hend H) as [Ha Hb]; destruct (H4 Ha); auto.
Qed.
(** [lost before x]: after the call [before], an MSet that runs inside the call [x] and has returned has no effect on the key any
    more: what is replied to [x] and to the Get after both is the reply of neither order. *)
Definition lost (before x : call) : Prop := exists s r0 r g,
  let M := CMSet [(bs "k", bs "9")] in let G := CGet (bs "k") in let ok := RStr (bs "OK", None) in
  events_of s (new_world 0) = Some [EInv 1 before; ERet 1 r0; EInv 1 x; EInv 2 M; ERet 2 ok; ERet 1 r; EInv 1 G; ERet 1 g] /\
  (forall w, run_hist [(0, before); (0, x); (0, M); (0, G)] (new_world 0) <> Done w [r0; r; ok; g]) /\
  (forall w, run_hist [(0, before); (0, M); (0, x); (0, G)] (new_world 0) <> Done w [r0; ok; r; g]).
Definition drive (before x : call) (a b c : nat) : list act :=
  [AInv 1 before] ++ runs 1 a ++ [ARet 1; AInv 1 x] ++ runs 1 b ++ [AInv 2 (CMSet [(bs "k", bs "9")])] ++ runs 2 1 ++ [ARet 2] ++ runs 1 c ++ [ARet 1; AInv 1 (CGet (bs "k"))].
Definition replies_of (h : list call) : list reply := match run_hist (map (pair 0) h) (new_world 0) with Done _ l => l | _ => [] end.
Lemma not_replies h l : replies_of h <> l -> forall w, run_hist (map (pair 0) h) (new_world 0) <> Done w l.
Proof. intros H w E. apply H. unfold replies_of. rewrite E. reflexivity. Qed.
Ltac lose a b c g := match goal with |- lost ?p ?x => exists (drive p x a b c ++ runs 1 g ++ [ARet 1]); do 3 eexists; cbn zeta; (split; [vm_compute; reflexivity|]); split;
  [refine (not_replies [_; _; _; _] _ _)|refine (not_replies [_; _; _; _] _ _)]; vm_compute; discriminate end.
Theorem C174_lost_refuted :
  let k := bs "k" in
  Forall (lost (CSet k (bs "5"))) [CGetSet k (bs "7"); CAppend k (bs "1"); CSetRange k 1 (bs "7"); CIncr k; CIncrBy k 2;
    CIncrByFloat k (f64_of_int 2); CDecr k; CDecrBy k 2] /\
  lost (CGet k) (CDel k).
Proof.
  cbn zeta. split; [repeat (apply List.Forall_cons; [lose 3%nat 3%nat 2%nat 4%nat || lose 3%nat 2%nat 2%nat 4%nat|]); constructor|]. lose 3%nat 2%nat 3%nat 3%nat.
Qed.
Example C174_nonvacuous : Forall blind (parts (CMSet [(bs "a", bs "1"); (bs "b", bs "2")])) /\ Forall blind (parts (CSetNX (bs "b") (bs "x"))) /\
  events_of ([AInv 1 (CMSet [(bs "a", bs "1"); (bs "b", bs "2")]); AInv 2 (CSetNX (bs "b") (bs "x"))] ++ runs 1 1 ++ runs 2 2 ++ runs 1 1 ++ runs 2 1 ++ [ARet 1; ARet 2; AInv 1 (CGet (bs "b"))] ++ runs 1 4 ++ [ARet 1]) (new_world 0) =
  Some [EInv 1 (CMSet [(bs "a", bs "1"); (bs "b", bs "2")]); EInv 2 (CSetNX (bs "b") (bs "x")); ERet 1 (RStr (bs "OK", None)); ERet 2 (RInt (1, None));
    EInv 1 (CGet (bs "b")); ERet 1 (RStr (bs "2", None))].
Proof. split; [repeat constructor|]. split; [repeat constructor|]. vm_compute. reflexivity. Qed.
