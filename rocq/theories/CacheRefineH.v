(** * CacheRefineH: the hash calls *)
From Verif Require Import Base GoFloat CacheModel CacheSpec CacheAbs CacheRefine.

Lemma no_bad (m : gmap gostr gval) : (forall f v, m !! f = Some v -> scalar v) -> existsb hgetall_bad (map_to_list m) = false.
Proof.
  intros Hm. destruct (existsb hgetall_bad (map_to_list m)) eqn:E; [|reflexivity]. exfalso.
  apply existsb_exists in E as [[f v] [Hin Hb]]. apply elem_of_list_In, elem_of_map_to_list in Hin.
  specialize (Hm _ _ Hin). unfold hgetall_bad in Hb. simpl in Hb. destruct v; simpl in *; try discriminate; tauto.
Qed.

Lemma sk_wr {A} k (p : prog A) f (inj : A -> reply) :
  sk k p (fun t v => Some (f t v)) -> sk k (pmap inj p) (fun t v => wr inj (f t v)).
Proof.
  intros Hp D E H N T HW. specialize (Hp D E H N T HW). cbn beta iota in Hp. unfold wr.
  destruct (f T (cellat D H k, E !! k)) as [v' x]. cbn beta iota delta [fst snd] in Hp |- *. destruct Hp as (D' & E' & H' & N' & Ev & Hrest).
  exists D', E', H', N'. split; [|exact Hrest]. unfold pmap. rewrite eval_bind, Ev. reflexivity.
Qed.

(** [K] acts on the object at [l] as [g]. *)
Definition acts {A} (K : positive -> prog A) (g : hobj -> hobj * A) : Prop :=
  (forall D E H N b m T l o, H !! l = Some o ->
     eval (K l) (W (Some D) (Some E) H N b m T) = Done (W (Some D) (Some E) (<[l:=fst (g o)]> H) N b m T) (snd (g o))) /\
  (forall o, flat o -> flat (fst (g o))).

Ltac live_cases D E H N T HW :=
  let Ed := fresh "Ed" in let Ec := fresh "Ec" in let Ee := fresh "Ee" in let Ho := fresh "Ho" in let Hf := fresh "Hf" in
  let Hx := fresh "Hx" in let x := fresh "x" in let o := fresh "o" in let l := fresh "l" in
  match goal with |- context [cellat D H ?k] =>
    destruct (key_cases D H N k HW) as [[Ed Ec]|[(x & Ed & Hx & Ec)|(l & o & Ed & Ho & Ec & Hf)]];
    rewrite Ec; ared; destruct (E !! k) as [dl|] eqn:Ee
  end;
  unfold get_hash_entry; crew; unfold dead; rewrite ?Ed, ?Ee; crew; try rewrite Ed; crew;
  try (destruct (_ <? _) eqn:?); ared; crew;
  try match goal with Hx : scalar ?x |- _ => destruct x; try destruct Hx end;
  crew.

Lemma sk_hwrite {A} k (z : A) (K : positive -> prog (gret A)) g : acts K g ->
  sk k (do h <- get_hash_entry k;
        match h with HWrong => Ret (z, Some ErrWrongType) | _ => do l <- get_or_new k h; K l end)
     (fun t v => Some (a_hwrite z g (purge t v))).
Proof.
  intros [HK Hg] D E H N T HW. live_cases D E H N T HW.
  all: try solve [fin].
  all: unfold get_or_new, new_hash; crew.
  all: try (destruct (g empty_hobj) as [o1 r1] eqn:Eg; rewrite (HK _ _ _ _ _ _ _ _ _ (lookup_insert H N _));
    fold empty_hobj; rewrite Eg; cbn [fst snd]; rewrite insert_insert;
    assert (Hf1 : flat o1) by (change o1 with (fst (o1, r1)); rewrite <- Eg; auto using flat_empty)).
  all: try (destruct (g o) as [o1 r1] eqn:Eg; rewrite (HK _ _ _ _ _ _ _ _ _ Ho); rewrite Eg; cbn [fst snd];
    assert (Hf1 : flat o1) by (change o1 with (fst (o1, r1)); rewrite <- Eg; auto)).
  all: solve [fin].
Qed.

Lemma sk_hread {A} k (z : A) absent (K : positive -> prog (gret A)) g : acts K g ->
  sk k (do h <- get_hash_entry k;
        match h with HWrong => Ret (z, Some ErrWrongType) | HNil => Ret absent | HEntry l => K l end)
     (fun t v => Some (a_hread z absent g (purge t v))).
Proof.
  intros [HK Hg] D E H N T HW. live_cases D E H N T HW.
  all: try solve [fin].
  all: try (destruct (g o) as [o1 r1] eqn:Eg; rewrite (HK _ _ _ _ _ _ _ _ _ Ho); rewrite Eg; cbn [fst snd];
    assert (Hf1 : flat o1) by (change o1 with (fst (o1, r1)); rewrite <- Eg; auto)).
  all: solve [fin].
Qed.

Ltac hrew Ho := repeat first
  [ rewrite (ev_h_load _ _ _ _ _ _ _ _ _ _ Ho) | rewrite (ev_he_get _ _ _ _ _ _ _ _ _ _ Ho)
  | rewrite (ev_h_get_len _ _ _ _ _ _ _ _ _ Ho) | rewrite (ev_h_set_len _ _ _ _ _ _ _ _ _ _ Ho)
  | rewrite (ev_h_range _ _ _ _ _ _ _ _ _ Ho) | rewrite (ev_h_los _ _ _ _ _ _ _ _ _ _ _ Ho)
  | rewrite (ev_he_set _ _ _ _ _ _ _ _ _ _ _ Ho) | rewrite (ev_hmset _ _ _ _ _ _ _ _ _ _ _ Ho)
  | rewrite (ev_hdel _ _ _ _ _ _ _ _ _ _ _ Ho) | rewrite (ev_hmget_some _ _ _ _ _ _ _ _ _ _ Ho) ].

Ltac acts_tac :=
  split; [intros D E H N b m T l o Ho; repeat (progress (crew; hrew Ho)); repeat (cases_; repeat (progress (crew; hrew Ho))); cbn [fst snd];
          rewrite ?insert_id by auto; try reflexivity
         |intros o Ho; repeat cases_; cbn [fst snd]; eauto with cwf].

Lemma sk_HSet k f v : sk k (call_prog (CHSet k f v)) (abs1 (CHSet k f v)).
Proof. apply sk_wr, sk_hwrite. acts_tac. Qed.
Lemma sk_HSetNX k f v : sk k (call_prog (CHSetNX k f v)) (abs1 (CHSetNX k f v)).
Proof.
  apply sk_wr. apply (sk_hwrite k 0 (fun l => do r <- h_load_or_store l f (VStr v);
         if snd r then Ret (0, None)
         else do len <- h_get_len l; h_set_len l (wrap64 (len + 1));;; Ret (1, None))).
  acts_tac.
  rewrite (ev_h_get_len _ _ _ _ _ _ _ _ _ (lookup_insert _ _ _)). crew. cbn [h_len].
  rewrite (ev_h_set_len _ _ _ _ _ _ _ _ _ _ (lookup_insert _ _ _)). crew. cbn [h_map]. rewrite insert_insert. reflexivity.
Qed.
Lemma sk_HExists k f : sk k (call_prog (CHExists k f)) (abs1 (CHExists k f)).
Proof. apply sk_wr, sk_hread. acts_tac. Qed.
Lemma sk_HDel k fs : sk k (call_prog (CHDel k fs)) (abs1 (CHDel k fs)).
Proof.
  apply sk_wr, sk_hread. split.
  - intros D E H N b m T l o Ho. crew. hrew Ho. crew. destruct (o_del o fs 0) as [o' n] eqn:Ed. cbn [fst snd].
    destruct (n =? 0); crew; [reflexivity|].
    rewrite (ev_h_get_len _ _ _ _ _ _ _ _ _ (lookup_insert _ _ _)). crew. cbn [h_len].
    rewrite (ev_h_set_len _ _ _ _ _ _ _ _ _ _ (lookup_insert _ _ _)). crew. cbn [h_map]. rewrite insert_insert. reflexivity.
  - intros o Ho. pose proof (flat_del o fs 0 Ho) as Hd. destruct (o_del o fs 0) as [o' n]. cbn [fst snd] in *.
    destruct (n =? 0); auto.
Qed.
Lemma sk_HLen k : sk k (call_prog (CHLen k)) (abs1 (CHLen k)).
Proof. apply sk_wr, sk_hread. acts_tac. Qed.
Lemma sk_HStrLen k f : sk k (call_prog (CHStrLen k f)) (abs1 (CHStrLen k f)).
Proof. apply sk_wr, sk_hread. acts_tac. Qed.
Lemma sk_HIncrBy k f d : sk k (call_prog (CHIncrBy k f d)) (abs1 (CHIncrBy k f d)).
Proof. apply sk_wr, sk_hwrite. unfold g_hincr. acts_tac. Qed.
Lemma sk_HIncrByFloat k f d : sk k (call_prog (CHIncrByFloat k f d)) (abs1 (CHIncrByFloat k f d)).
Proof. apply sk_wr, sk_hwrite. unfold g_hincr. acts_tac. Qed.
Lemma sk_HMSet k fv : sk k (call_prog (CHMSet k fv)) (abs1 (CHMSet k fv)).
Proof.
  apply sk_wr, sk_hwrite. split.
  - intros D E H N b m T l o Ho. crew. hrew Ho. crew. destruct (o_mset o fv 0). reflexivity.
  - intros o Ho. pose proof (flat_mset o fv 0 Ho). destruct (o_mset o fv 0). auto.
Qed.
Lemma sk_HGet k f : sk k (call_prog (CHGet k f)) (abs1 (CHGet k f)).
Proof. apply sk_wr, sk_hread. acts_tac. Qed.
Lemma sk_HMGet k fs : sk k (call_prog (CHMGet k fs)) (abs1 (CHMGet k fs)).
Proof.
  intros D E H N T HW. cbn [call_prog]. unfold pmap, m_hmget. live_cases D E H N T HW;
  rewrite ?ev_hmget_nil; crew; try solve [fin]; hrew Ho; crew; solve [fin].
Qed.
Lemma sk_HKeys k : sk k (call_prog (CHKeys k)) (abs1 (CHKeys k)).
Proof.
  intros D E H N T HW. cbn [call_prog]. unfold pmap, m_hkeys. live_cases D E H N T HW;
  try reflexivity; try solve [fin]; hrew Ho; crew; solve [fin].
Qed.
Lemma sk_HVals k : sk k (call_prog (CHVals k)) (abs1 (CHVals k)).
Proof.
  intros D E H N T HW. cbn [call_prog]. unfold pmap, m_hvals. live_cases D E H N T HW;
  try reflexivity; try solve [fin]; hrew Ho; crew; solve [fin].
Qed.
Lemma sk_HGetAll k : sk k (call_prog (CHGetAll k)) (abs1 (CHGetAll k)).
Proof.
  intros D E H N T HW. cbn [call_prog]. unfold pmap, m_hgetall. live_cases D E H N T HW;
  try reflexivity; try solve [fin]; hrew Ho; crew; rewrite no_bad by exact Hf; crew; solve [fin].
Qed.

Theorem sk_single c k : single c = Some k -> sk k (call_prog c) (abs1 c).
Proof.
  intros Hs. pose proof (sk_string c) as Hc.
  destruct c; cbn [single keys_of] in Hs; try discriminate Hs; injection Hs as <-;
  lazymatch goal with
  | |- sk _ (call_prog (CHSet _ _ _)) _ => apply sk_HSet
  | |- sk _ (call_prog (CHSetNX _ _ _)) _ => apply sk_HSetNX
  | |- sk _ (call_prog (CHExists _ _)) _ => apply sk_HExists
  | |- sk _ (call_prog (CHDel _ _)) _ => apply sk_HDel
  | |- sk _ (call_prog (CHLen _)) _ => apply sk_HLen
  | |- sk _ (call_prog (CHStrLen _ _)) _ => apply sk_HStrLen
  | |- sk _ (call_prog (CHIncrBy _ _ _)) _ => apply sk_HIncrBy
  | |- sk _ (call_prog (CHIncrByFloat _ _ _)) _ => apply sk_HIncrByFloat
  | |- sk _ (call_prog (CHMSet _ _)) _ => apply sk_HMSet
  | |- sk _ (call_prog (CHMGet _ _)) _ => apply sk_HMGet
  | |- sk _ (call_prog (CHKeys _)) _ => apply sk_HKeys
  | |- sk _ (call_prog (CHVals _)) _ => apply sk_HVals
  | |- sk _ (call_prog (CHGetAll _)) _ => apply sk_HGetAll
  | |- sk _ (call_prog (CHGet _ _)) _ => apply sk_HGet
  | |- _ => exact Hc
  end.
Qed.
