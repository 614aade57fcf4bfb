(** * Props_Conc8: MGet and Exists of several keys among other calls *)
From stdpp Require Import gmap list.
From Verif Require Import Base GoFloat CacheModel CacheSpec StoreSpec CacheConc.
From Verif Require Import CacheAbs CacheRefine CacheRefineH CacheMain CacheLib ConcLin Props_String Props_Db Props_Conc Props_Conc7 Props_Store Props_Store2 Props_Store3.

Definition todo_of (x : call * list call * bool * list reply) : list call := match x with (_, todo, cur, _) => if cur then List.tl todo else todo end.
Definition waiting (m : gmap nat (call * list call * bool * list reply)) : list call := flat_map (fun x => todo_of (snd x)) (map_to_list m).
Lemma flat_map_perm {A B} (f : A -> list B) l1 l2 : l1 ≡ₚ l2 -> flat_map f l1 ≡ₚ flat_map f l2.
Proof.
  induction 1 as [|x l1 l2 _ IH|x y l|l1 l2 l3 _ IH1 _ IH2]; cbn; [reflexivity|rewrite IH; reflexivity| |rewrite IH1; exact IH2].
  rewrite !app_assoc. apply Permutation_app_tail, Permutation_app_comm.
Qed.
Lemma waiting_insert m i x : m !! i = None -> waiting (<[i := x]> m) ≡ₚ todo_of x ++ waiting m.
Proof. intros H. unfold waiting. rewrite (flat_map_perm _ _ _ (map_to_list_insert m i x H)). reflexivity. Qed.
Lemma waiting_delete m i x : m !! i = Some x -> waiting m ≡ₚ todo_of x ++ waiting (delete i m).
Proof. intros H. rewrite <- (insert_delete m i x H) at 1. apply waiting_insert, lookup_delete. Qed.
Lemma waiting_update m i x y : m !! i = Some x -> waiting (<[i := y]> m) ≡ₚ todo_of y ++ waiting (delete i m).
Proof. intros H. rewrite <- (insert_delete_insert m). apply waiting_insert, lookup_delete. Qed.
Lemma issued_app a b : issued (a ++ b) = issued a ++ issued b. Proof. apply omap_app. Qed.
(** The parts that have begun and those still to come are the parts of the calls. *)
Lemma nested_calls B m : nested B m -> flat_map parts (issued (outer B)) ≡ₚ issued (inner B) ++ waiting m.
Proof.
  induction 1 as [|B m t H IH|B m i c H IH Hm|B m i c d todo rs H IH Hm|B m i c d todo rs r H IH Hm|B m i c rs H IH Hm]; rewrite ?outer_app, ?inner_app, ?issued_app, ?flat_map_app; cbn [outer inner issued omap list_omap app flat_map]; rewrite ?app_nil_r.
  - reflexivity.
  - exact IH.
  - rewrite IH, waiting_insert by exact Hm. cbn [todo_of]. rewrite <- app_assoc. apply Permutation_app_head, Permutation_app_comm.
  - rewrite IH, (waiting_update m i _ _ Hm), (waiting_delete m i _ Hm). cbn [todo_of List.tl]. rewrite <- app_assoc. reflexivity.
  - rewrite IH, (waiting_update m i _ _ Hm), (waiting_delete m i _ Hm). reflexivity.
  - rewrite IH, (waiting_delete m i _ Hm). reflexivity.
Qed.
Lemma nested_calls_in (P : call -> Prop) B m : nested B m -> calls_in (fun c => Forall P (parts c)) (outer B) -> calls_in P (inner B).
Proof.
  intros Hn Hc i c Hi. assert (Hx : c ∈ flat_map parts (issued (outer B))).
  { rewrite (nested_calls B m Hn). apply elem_of_app. left. apply elem_of_list_omap. exists (EInv i c). auto. }
  apply elem_of_list_In, in_flat_map in Hx as (d & Hd & Hx). apply elem_of_list_In, elem_of_list_omap in Hd as ([j d'|j r|t] & Hd & E); try discriminate. injection E as ->.
  specialize (Hc j d Hd). rewrite List.Forall_forall in Hc. apply Hc, Hx.
Qed.

(** ** C173: MGet shows one moment

    Full statement: the reply of MGet and Exists is that of the same call made at one moment between its invocation and its
    return.  Missing: they look at their keys one after the other.  What is true: each key is looked at at one moment, in order. *)
Theorem C173_one_moment_refuted : exists s,
  events_of s (new_world 0) = Some [EInv 1 (CMGet [bs "a"; bs "b"]); EInv 2 (CSet (bs "a") (bs "x")); ERet 2 (RStr (bs "OK", None));
    EInv 2 (CSet (bs "b") (bs "x")); ERet 2 (RStr (bs "OK", None)); ERet 1 (RSlots ([SlotErr ErrKeyNil; SlotStr (bs "x")], None))].
Proof.
  exists ([AInv 1 (CMGet [bs "a"; bs "b"])] ++ runs 1 1 ++ [AInv 2 (CSet (bs "a") (bs "x"))] ++ runs 2 3 ++ [ARet 2; AInv 2 (CSet (bs "b") (bs "x"))] ++ runs 2 3 ++ [ARet 2] ++ runs 1 2 ++ [ARet 1]).
  vm_compute. reflexivity.
Qed.
Theorem C173_key_by_key_partial w0 s c evs :
  ready w0 -> (forall k, deadline w0 k = None) -> calls_in (fun cl => Forall no_duration (parts cl)) evs -> cexec s (start w0) = Some (c, evs) ->
  exists B n A m last ws, nested B n /\ outer B = evs /\ observed A = inner B /\ lin_ok w0 A m (w_now (c_w c)) last ws /\
    run_hist (lin_calls A) w0 = Done ws (lin_replies A) /\ (c_th c = ∅ -> n = ∅ /\ m = ∅ /\ same_cache (c_w c) ws).
Proof.
  intros Hr Hd Hc E. destruct (C172_parts_one_after_the_other w0 s c evs E) as (s' & c' & B & n & E' & Ho & Hn & Hw & Hend).
  rewrite <- Ho in Hc. pose proof (nested_calls_in no_duration B n Hn Hc) as Hc'.
  destruct (C105_readers_and_writers_linearizable w0 s' c' (inner B) Hr Hd Hc' E') as (A & m & last & ws & H1 & H2 & H3 & H4).
  exists B, n, A, m, last, ws. rewrite <- Hw. repeat (split; auto). all: destruct (Hend H) as [Ha Hb]; destruct (H4 Ha); auto.
Qed.
(** Against the reference store of C169 and C170. *)
Theorem C173_reference_store_partial K t0 s c evs : calls_in (fun cl => Forall (counting K) (parts cl)) evs -> total (issued evs) < 2 ^ 63 ->
  cexec s (start (new_world t0)) = Some (c, evs) ->
  exists B n A m last ws, nested B n /\ outer B = evs /\ observed A = inner B /\ lin_ok (new_world t0) A m (w_now (c_w c)) last ws /\
    lin_replies A = ref_run (lin_calls A) no_keys.
Proof.
  intros Hc Ht E. destruct (C172_parts_one_after_the_other _ s c evs E) as (s' & c' & B & n & E' & Ho & Hn & Hw & _). subst evs.
  pose proof (nested_calls_in (counting K) B n Hn Hc) as Hc'.
  assert (Hle : total (issued (inner B)) <= total (issued (outer B))).
  { pose proof (total_perm _ _ (nested_calls B n Hn)) as Hp. rewrite total_app in Hp. pose proof (total_pos (waiting n)).
    assert (Hq : total (flat_map parts (issued (outer B))) = total (issued (outer B))); [|lia].
    assert (Hf : Forall (fun cl => Forall (counting K) (parts cl)) (issued (outer B))).
    { apply List.Forall_forall. intros d Hd. apply elem_of_list_In, elem_of_list_omap in Hd as ([j d'|j r|t] & Hd & Ed); try discriminate. injection Ed as ->. exact (Hc j d Hd). }
    clear -Hf. induction Hf as [|d l Hd _ IH]; [reflexivity|]. cbn [flat_map]. rewrite total_app. change (total (d :: l)) with (weight d + total l). rewrite IH. f_equal.
    assert (Hz : forall (A : Type) (f : A -> call) (l : list A), (forall x, weight (f x) = 0) -> total (map f l) = 0).
    { intros A f l0 Hf. induction l0 as [|x l0 IH0]; [reflexivity|]. cbn [map]. change (weight (f x) + total (map f l0) = 0). rewrite Hf, IH0. reflexivity. }
    destruct d; cbn [parts]; try (apply Hz; reflexivity); unfold total; cbn [foldr]; rewrite Z.add_0_r; reflexivity. }
  destruct (C170_counters_share_reference_store K t0 s' c' (inner B) Hc' ltac:(lia) E') as (A & m & last & ws & H1 & H2 & H3).
  exists B, n, A, m, last, ws. rewrite <- Hw. auto.
Qed.
Example C173_nonvacuous : Forall no_duration (parts (CMGet [bs "a"; bs "b"])) /\ Forall (counting is_c) (parts (CExists [bs "a"; bs "n"])) /\
  events_of ([AInv 1 (CMGet [bs "a"; bs "b"]); AInv 2 (CSet (bs "a") (bs "x"))] ++ runs 2 3 ++ runs 1 3 ++ [ARet 1; ARet 2]) (new_world 0) =
  Some [EInv 1 (CMGet [bs "a"; bs "b"]); EInv 2 (CSet (bs "a") (bs "x")); ERet 1 (RSlots ([SlotStr (bs "x"); SlotErr ErrKeyNil], None)); ERet 2 (RStr (bs "OK", None))].
Proof. split; [repeat constructor|]. split; [repeat constructor|]. vm_compute. reflexivity. Qed.
