(** Properties C09 and C57, continued: R2q of any matrix, and what every message says. *)
From Coq Require Import Reals String List Bool Arith Lra Psatz.
From Verif Require Import LinAlg RealAux Py FactsReal FactsLinAlg ModelRot SpecRot FactsRot ModelTransform SpecKin FactsKin
  FactsJac ModelRos SpecRos PropRos.
Import ListNotations.
Open Scope R_scope.

(** C09.  R2q neither fails nor divides by zero for any matrix, and never returns the zero quaternion. *)
Theorem C09_total : forall A, exists q, R2q A = Ok (Fin q) /\ qdot q q > 0.
Proof.
  assert (S0 : forall x, 0 < x -> exists s, math_sqrt x = Ok s /\ 0 < s).
  { intros x H. exists (sqrt x). unfold math_sqrt. rewrite (proj2 (Rltb_false x 0)) by lra. split; auto. apply sqrt_lt_R0; auto. }
  assert (Q : forall s a b c, 0 < s -> (1/4 * (2 * s)) * (1/4 * (2 * s)) + a * a + b * b + c * c > 0) by (intros; nra).
  assert (Z : forall s, 0 < s -> Reqb (2 * s) 0 = false) by (intros s H; apply Reqb_false; lra).
  intros A. unfold R2q, trace. destruct (Rltb 0 (m00 A + m11 A + m22 A)) eqn:B1.
  - apply Rltb_true in B1. destruct (S0 (m00 A + m11 A + m22 A + 1)) as (s & -> & P); [lra|]. cbn [bind]. rewrite (Z s P).
    eexists. split; [reflexivity|]. unfold qdot. cbn [q0 q1 q2 q3]. match goal with |- _ + ?a * ?a + ?b * ?b + ?c * ?c > 0 => pose proof (Q s a b c P) end. lra.
  - apply Rltb_false in B1. destruct (Rltb (m11 A) (m00 A) && Rltb (m22 A) (m00 A))%bool eqn:B2.
    + apply andb_prop in B2. destruct B2 as [B2 B3]. apply Rltb_true in B2. apply Rltb_true in B3.
      destruct (S0 (1 + m00 A - m11 A - m22 A)) as (s & -> & P); [lra|]. cbn [bind]. rewrite (Z s P).
      eexists. split; [reflexivity|]. unfold qdot. cbn [q0 q1 q2 q3].
      match goal with |- ?a * ?a + _ + ?b * ?b + ?c * ?c > 0 => pose proof (Q s a b c P) end. lra.
    + apply andb_false_iff in B2. destruct (Rltb (m22 A) (m11 A)) eqn:B3.
      * apply Rltb_true in B3.
        assert (L : m00 A <= m11 A) by (destruct B2 as [B2|B2]; apply Rltb_false in B2; lra).
        destruct (S0 (1 - m00 A + m11 A - m22 A)) as (s & -> & P); [lra|]. cbn [bind]. rewrite (Z s P).
        eexists. split; [reflexivity|]. unfold qdot. cbn [q0 q1 q2 q3].
        match goal with |- ?a * ?a + ?b * ?b + _ + ?c * ?c > 0 => pose proof (Q s a b c P) end. lra.
      * apply Rltb_false in B3.
        assert (L : m00 A <= m22 A) by (destruct B2 as [B2|B2]; apply Rltb_false in B2; lra).
        destruct (S0 (1 - m00 A - m11 A + m22 A)) as (s & -> & P); [lra|]. cbn [bind]. rewrite (Z s P).
        eexists. split; [reflexivity|]. unfold qdot. cbn [q0 q1 q2 q3].
        match goal with |- ?a * ?a + ?b * ?b + ?c * ?c + _ > 0 => pose proof (Q s a b c P) end. lra.
Qed.
(** not a rotation: a reflection *)
Example C09_total_ex : ~ is_SO3 (M3 (-1) 0 0 0 (-1) 0 0 0 (-1)) /\ trace (M3 (-1) 0 0 0 (-1) 0 0 0 (-1)) < -1.
Proof. split; [intros (_ & D); unfold det in D; cbn in D; lra | unfold trace; cbn; lra]. Qed.

(** C57.  Every transform, rigid or not, becomes a message of finite numbers; what the message says is the quaternion of
    R2q, the position and the frames, an unnamed frame as the empty name. *)
Definition frame_name (n : option string) : string := match n with Some n => n | None => ""%string end.
Theorem C57_always : forall T, exists q, R2q (tR T) = Ok (Fin q) /\
  (exists m, transform2msg T = Ok (Fin m) /\ says m KTransform q (tp T) None None) /\
  (exists m, transform2pose_msg T = Ok (Fin m) /\ says m KPose q (tp T) None None) /\
  (exists m, transform2transform_stamped_msg T = Ok (Fin m) /\
     says m KTransformStamped q (tp T) (Some (frame_name (t_parent T))) (Some (frame_name (t_child T)))) /\
  (exists m, transform2pose_stamped_msg T = Ok (Fin m) /\ says m KPoseStamped q (tp T) (Some (frame_name (t_parent T))) None).
Proof.
  intros [A p pa ch]. cbn [tR tp t_parent t_child] in *. destruct (C09_total A) as (q & E & _). exists q. split; [exact E|].
  unfold transform2msg, transform2pose_msg, transform2transform_stamped_msg, transform2pose_stamped_msg, with_R, R2obj.
  cbn [tR tp t_parent t_child]. rewrite E. cbn [bind].
  split; [|split; [|split]]; eexists; (split; [reflexivity|]);
    cbv [says says_transform says_pose under has_quaternion has_vector says_frame]; repeat (split || eexists).
Qed.
(** So an unnamed frame comes back as the empty name. *)
Theorem C57_unnamed : forall A p, is_SO3 A ->
  exists m, transform2transform_stamped_msg (Tf A p None None) = Ok (Fin m) /\
    msg2transform m = Ok (Tf A p (Some ""%string) (Some ""%string)).
Proof. intros A p H. exact (proj1 (proj2 (proj2 (C57_roundtrip (Tf A p None None) H)))). Qed.
Print Assumptions C09_total.
Print Assumptions C57_always.
Print Assumptions C57_unnamed.
