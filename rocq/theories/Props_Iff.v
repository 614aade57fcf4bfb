(** * Props_Iff: for exactly which replies and texts C69 and C120 hold *)
From Verif Require Import Base GoFloat RespModel RespSpec RespLib ClientModel Props_Client.

(** ** C69: a method for a number does what it should exactly unless the reply is a text or an array *)
Definition int_reply_ok (q : rcall) (c : conn) (m : msg) : Prop :=
  match m with
  | MInt n => returned (exec q c) = Some (VInt n, None)
  | _ => exists v e, returned (exec q c) = Some (v, Some e)
  end.
Theorem C69_exact_partial q c m s : kind_of q = KInt -> recv (cn_in c) = ROk m s ->
  (int_reply_ok q c m <-> (forall t, m <> MBulk t) /\ (forall t, m <> MSimple t) /\ (forall l, m <> MArr l)).
Proof.
  intros Hk E. pose proof (C69_integer_replies_partial q c m s Hk E) as H. unfold int_reply_ok. destruct m; cbn in H.
  - split; [repeat split; discriminate|]. intros _. destruct H as [e H]. eauto.
  - rewrite H. split; [intros (v & e & [=])|]. intros (A & _). exfalso. eapply A. reflexivity.
  - rewrite H. split; [intros (v & e & [=])|]. intros (_ & A & _). exfalso. eapply A. reflexivity.
  - split; [repeat split; discriminate|]. intros _. eauto.
  - split; [repeat split; discriminate|]. intros _. exact H.
  - rewrite H. split; [intros (v & e & [=])|]. intros (_ & _ & A). exfalso. eapply A. reflexivity.
Qed.
Example C69_exact_nonvacuous : kind_of (QIncr (bs "k")) = KInt /\ recv (cn_in (wired (bs ":5" ++ crlf))) = ROk (MInt 5) (Rd [] []).
Proof. vm_compute. auto. Qed.
Print Assumptions C69_exact_partial.
