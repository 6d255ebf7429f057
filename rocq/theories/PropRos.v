(** Properties C56-C59: ROS messages and tf lookups. *)
From Coq Require Import Reals String List Bool Arith Lra.
From Verif Require Import LinAlg RealAux Py FactsReal FactsLinAlg ModelRot SpecRot FactsRot ModelTransform SpecKin FactsKin
  FactsJac ModelRos SpecRos.
Import ListNotations.
Open Scope R_scope.

(* ================= C56 ================= *)
Theorem C56_roundtrip : forall (A : Type) (l : list A),
  (forall m, q2msg l = Ok m -> msg2q m = l) /\ (forall m, p2msg l = Ok m -> msg2p m = l) /\
  (forall m, p2point_msg l = Ok m -> point_msg2p m = l) /\
  (forall m, twist2msg l = Ok m -> msg2twist m = l) /\ (forall m, wrench2msg l = Ok m -> msg2wrench m = l).
Proof.
  intros A l.
  repeat split; intros m H; repeat (destruct l as [|? l]; try discriminate H); injection H as <-; reflexivity.
Qed.
(** Arrays of the right size are always accepted, others never. *)
Theorem C56_size : forall (A : Type) (l : list A),
  (if Nat.eqb (List.length l) 4 then exists m, q2msg l = Ok m else q2msg l = Err ValueError) /\
  (if Nat.eqb (List.length l) 3 then exists m, p2msg l = Ok m else p2msg l = Err ValueError) /\
  (if Nat.eqb (List.length l) 3 then exists m, p2point_msg l = Ok m else p2point_msg l = Err ValueError) /\
  (if Nat.eqb (List.length l) 6 then exists m, twist2msg l = Ok m else twist2msg l = Err ValueError) /\
  (if Nat.eqb (List.length l) 6 then exists m, wrench2msg l = Ok m else wrench2msg l = Err ValueError).
Proof.
  intros A l. do 7 (destruct l as [|? l]; [simpl; repeat split; eauto|]). simpl. repeat split; reflexivity.
Qed.
Theorem C56_back : forall A : Type,
  (forall m : qmsg A, q2msg (msg2q m) = Ok m) /\ (forall m : vmsg A, p2msg (msg2p m) = Ok m) /\
  (forall m : vmsg A, p2point_msg (point_msg2p m) = Ok m) /\
  (forall m : twistmsg A, twist2msg (msg2twist m) = Ok m) /\ (forall m : wrenchmsg A, wrench2msg (msg2wrench m) = Ok m).
Proof.
  intros A. split; [intros []; reflexivity|]. split; [intros []; reflexivity|]. split; [intros []; reflexivity|].
  split; intros [[] []]; reflexivity.
Qed.
(** The order of the entries. *)
Theorem C56_order : forall (A : Type) (w x y z a b c : A),
  msg2q (Qmsg x y z w) = [w; x; y; z] /\ msg2p (Vmsg x y z) = [x; y; z] /\ point_msg2p (Vmsg x y z) = [x; y; z] /\
  msg2twist (Twistmsg (Vmsg x y z) (Vmsg a b c)) = [a; b; c; x; y; z] /\
  msg2wrench (Wrenchmsg (Vmsg x y z) (Vmsg a b c)) = [a; b; c; x; y; z].
Proof. repeat split. Qed.
Example C56_ex : q2msg [NaN; Fin 1; Fin 2; Fin 3] = Ok (Qmsg (Fin 1) (Fin 2) (Fin 3) NaN) /\
  wrench2msg [1; 2; 3; 4; 5; 6] = Ok (Wrenchmsg (Vmsg 4 5 6) (Vmsg 1 2 3)).
Proof. split; reflexivity. Qed.
Print Assumptions C56_roundtrip.
Print Assumptions C56_size.
Print Assumptions C56_back.
Print Assumptions C56_order.

(* ================= C57 ================= *)
Lemma obj2R_quat q : obj2R (Quaternion_obj q) = Ok (q2R q).
Proof. destruct q; reflexivity. Qed.
Lemma obj2p_vec v : obj2p (Vector3_obj v) = Ok v.
Proof. destruct v; reflexivity. Qed.
Lemma with_R_ok A f : is_SO3 A -> exists q, with_R A f = Ok (Fin (f (Quaternion_obj q))) /\ unit4 q /\ q2R q = A.
Proof.
  intros H. destruct (R2q_correct A H) as (q & E & U & Q). exists q. unfold with_R, R2obj. rewrite E. simpl. auto.
Qed.
Theorem C57_roundtrip : forall T, rigid T ->
  (exists m, transform2msg T = Ok (Fin m) /\ msg2transform m = Ok (Tf (tR T) (tp T) None None)) /\
  (exists m, transform2pose_msg T = Ok (Fin m) /\ msg2transform m = Ok (Tf (tR T) (tp T) None None)) /\
  (exists m, transform2transform_stamped_msg T = Ok (Fin m) /\
     msg2transform m = Ok (Tf (tR T) (tp T) (Some (name_or_empty (t_parent T))) (Some (name_or_empty (t_child T))))) /\
  (exists m, transform2pose_stamped_msg T = Ok (Fin m) /\
     msg2transform m = Ok (Tf (tR T) (tp T) (Some (name_or_empty (t_parent T))) None)).
Proof.
  intros [A p pa ch] H. unfold rigid in H. cbn [tR tp t_parent t_child] in *.
  split; [|split; [|split]];
    [unfold transform2msg|unfold transform2pose_msg|unfold transform2transform_stamped_msg|unfold transform2pose_stamped_msg];
    cbn [tR tp t_parent t_child];
    match goal with |- context [with_R A ?f] => destruct (with_R_ok A f H) as (q & -> & U & <-) end;
    eexists; (split; [reflexivity|]); destruct q, p; reflexivity.
Qed.
(** With both frames named, TransformStamped loses nothing. *)
Theorem C57_stamped_identity : forall A p pa ch, is_SO3 A ->
  exists m, transform2transform_stamped_msg (Tf A p (Some pa) (Some ch)) = Ok (Fin m) /\
    msg2transform m = Ok (Tf A p (Some pa) (Some ch)).
Proof. intros A p pa ch H. exact (proj1 (proj2 (proj2 (C57_roundtrip (Tf A p (Some pa) (Some ch)) H)))). Qed.
(** The messages themselves carry a unit quaternion of the rotation, the position and the
    frame names. *)
Theorem C57_message : forall T, rigid T -> exists q, unit4 q /\ (forall x, sandwich q x = mvec (tR T) x) /\
  (forall m, transform2msg T = Ok (Fin m) -> says m KTransform q (tp T) None None) /\
  (forall m, transform2pose_msg T = Ok (Fin m) -> says m KPose q (tp T) None None) /\
  (forall m, transform2transform_stamped_msg T = Ok (Fin m) ->
     says m KTransformStamped q (tp T) (Some (name_or_empty (t_parent T))) (Some (name_or_empty (t_child T)))) /\
  (forall m, transform2pose_stamped_msg T = Ok (Fin m) ->
     says m KPoseStamped q (tp T) (Some (name_or_empty (t_parent T))) None).
Proof.
  intros [A p pa ch] H. unfold rigid in H. cbn [tR tp t_parent t_child] in *.
  destruct (R2q_correct A H) as (q & E & U & Q). exists q. split; [exact U|].
  split; [intros x; rewrite <- Q; symmetry; apply q2R_sandwich, U|].
  unfold transform2msg, transform2pose_msg, transform2transform_stamped_msg, transform2pose_stamped_msg, with_R, R2obj.
  cbn [tR tp t_parent t_child]. rewrite E. cbn [bind].
  split; [|split; [|split]]; intros m M; injection M as <-;
    cbv [says says_transform says_pose under has_quaternion has_vector says_frame]; repeat (split || eexists).
Qed.
(** So an unnamed frame never comes back as such from a stamped message, and the child
    frame never comes back from a PoseStamped message. *)
Theorem C57_lost_names : forall T, rigid T ->
  (forall m T', transform2transform_stamped_msg T = Ok (Fin m) -> msg2transform m = Ok T' ->
     t_parent T' <> None /\ t_child T' <> None) /\
  (forall m T', transform2pose_stamped_msg T = Ok (Fin m) -> msg2transform m = Ok T' -> t_parent T' <> None /\ t_child T' = None).
Proof.
  intros T H. destruct (C57_roundtrip T H) as (_ & _ & (m1 & E1 & B1) & (m2 & E2 & B2)). split.
  - intros m T' E B. rewrite E1 in E. injection E as <-. rewrite B1 in B. injection B as <-. split; discriminate.
  - intros m T' E B. rewrite E2 in E. injection E as <-. rewrite B2 in B. injection B as <-. split; [discriminate|reflexivity].
Qed.
Example C57_ex : rigid (Tf (rot (V3 0 (3/5) (4/5)) PI) (V3 1 2 3) (Some "world") None)%string.
Proof. apply rot_SO3. unfold unit3. la_unfold. lra. Qed.
Print Assumptions C57_roundtrip.
Print Assumptions C57_stamped_identity.
Print Assumptions C57_message.
Print Assumptions C57_lost_names.

(* ================= C58 ================= *)
Lemma hasattr_iff o k : hasattr o k = true <-> has o k.
Proof. unfold hasattr, has. destruct (attr o k); split; congruence. Qed.
Lemma hasattr2 o a b : (hasattr o a && hasattr o b)%bool = true <-> has o a /\ has o b.
Proof. rewrite andb_true_iff, !hasattr_iff. tauto. Qed.
Lemma obj2R_says o q : has_quaternion o q -> obj2R o = Ok (q2R q).
Proof. intros (X & Y & Z & W). unfold obj2R, get_num, getattr. rewrite X, Y, Z, W. destruct q; reflexivity. Qed.
Lemma obj2p_says o v : has_vector o v -> obj2p o = Ok v.
Proof. intros (X & Y & Z). unfold obj2p, get_num, getattr. rewrite X, Y, Z. destruct v; reflexivity. Qed.
Lemma get_num_inv o k x : get_num o k = Ok x -> attr o k = Some (Num x).
Proof. unfold get_num, getattr. destruct (attr o k) as [[]|]; simpl; congruence. Qed.
Lemma get_str_inv o k x : get_str o k = Ok x -> attr o k = Some (Str x).
Proof. unfold get_str, getattr. destruct (attr o k) as [[]|]; simpl; congruence. Qed.
Lemma getattr_inv o k v : getattr o k = Ok v -> attr o k = Some v.
Proof. unfold getattr. destruct (attr o k); congruence. Qed.
Ltac unbind := repeat match goal with H : bind _ _ = Ok _ |- _ => apply bind_ok in H; destruct H as (? & ? & ?) end.
Lemma obj2R_inv o A : obj2R o = Ok A -> exists q, has_quaternion o q /\ A = q2R q.
Proof.
  unfold obj2R. intros H. unbind. repeat match goal with H : get_num _ _ = Ok _ |- _ => apply get_num_inv in H end.
  match goal with H : Ok (q2R ?q) = _ |- _ => exists q; injection H as <- end. repeat split; assumption.
Qed.
Lemma obj2p_inv o p : obj2p o = Ok p -> has_vector o p.
Proof.
  unfold obj2p. intros H. unbind. repeat match goal with H : get_num _ _ = Ok _ |- _ => apply get_num_inv in H end.
  match goal with H : Ok _ = Ok _ |- _ => injection H as <- end. repeat split; assumption.
Qed.
Lemma under_has o k P : under o k P -> has o k.
Proof. intros (v & E & _). unfold has. congruence. Qed.
(** The first of the four kinds, in this order, that the object looks like decides. *)
Lemma like_not o a b k : fields_of k = (a, b) -> (hasattr o a && hasattr o b)%bool = false -> ~ looks_like o k.
Proof. unfold looks_like. intros -> H L. cbn [fst snd] in L. apply hasattr2 in L. congruence. Qed.
Lemma like_yes o a b k : fields_of k = (a, b) -> (hasattr o a && hasattr o b)%bool = true -> looks_like o k.
Proof. unfold looks_like. intros -> H. apply hasattr2 in H. exact H. Qed.
Ltac invs := repeat match goal with
  | H : getattr _ _ = Ok _ |- _ => apply getattr_inv in H
  | H : get_str _ _ = Ok _ |- _ => apply get_str_inv in H
  | H : obj2p _ = Ok _ |- _ => apply obj2p_inv in H
  | H : obj2R _ = Ok _ |- _ => apply obj2R_inv in H; destruct H as (? & ? & ->)
  | H : Ok _ = Ok _ |- _ => injection H as <-
  end.
(** Whatever is read, is read from the fields of the kind found first. *)
Theorem C58_reads : forall o T, msg2transform o = Ok T ->
  exists k q p, first_like o k /\ says o k q p (t_parent T) (t_child T) /\ T = Tf (q2R q) p (t_parent T) (t_child T).
Proof.
  intros o T E. unfold msg2transform in E.
  destruct (hasattr o "translation" && hasattr o "rotation")%bool eqn:A1;
    [|destruct (hasattr o "header" && hasattr o "transform")%bool eqn:A2;
      [|destruct (hasattr o "position" && hasattr o "orientation")%bool eqn:A3;
        [|destruct (hasattr o "header" && hasattr o "pose")%bool eqn:A4; [|discriminate]]]];
  unbind; invs; cbn [t_parent t_child].
  - exists KTransform. do 2 eexists. split; [|split; [|reflexivity]].
    + split; [eapply like_yes; [reflexivity|eassumption]|]. intros k' _. apply Nat.le_0_l.
    + repeat split; auto; eexists; eauto.
  - exists KTransformStamped. do 2 eexists. split; [|split; [|reflexivity]].
    + split; [eapply like_yes; [reflexivity|eassumption]|]. intros [] L; simpl; auto.
      exfalso. revert L. (eapply like_not; [reflexivity|eassumption]).
    + split; [eexists; split; [eassumption|]; split; eexists; eauto|].
      do 2 eexists. repeat split; eauto. eexists; eauto.
  - exists KPose. do 2 eexists. split; [|split; [|reflexivity]].
    + split; [eapply like_yes; [reflexivity|eassumption]|]. intros [] L; simpl; auto;
      exfalso; revert L; (eapply like_not; [reflexivity|eassumption]).
    + repeat split; auto; eexists; eauto.
  - exists KPoseStamped. do 2 eexists. split; [|split; [|reflexivity]].
    + split; [eapply like_yes; [reflexivity|eassumption]|]. intros [] L; simpl; auto;
      exfalso; revert L; (eapply like_not; [reflexivity|eassumption]).
    + split; [eexists; split; [eassumption|]; split; eexists; eauto|].
      eexists. repeat split; eauto. eexists; eauto.
Qed.
(** Every complete message is read, as what its kind says. *)
Theorem C58_dispatch : forall o k q p parent child, first_like o k -> says o k q p parent child ->
  msg2transform o = Ok (Tf (q2R q) p parent child).
Proof.
  intros o k q p pa ch (L & F) Sy.
  assert (N : forall k', (rank k' < rank k)%nat -> (hasattr o (fst (fields_of k')) && hasattr o (snd (fields_of k')))%bool = false).
  { intros k' Hk. destruct (_ && _)%bool eqn:E; auto. apply hasattr2 in E. specialize (F k' E).
    apply Nat.lt_nge in Hk. contradiction. }
  apply hasattr2 in L. unfold msg2transform.
  destruct k; cbn [fields_of fst snd] in L; cbn [says] in Sy; unfold says_transform, says_pose, says_frame in Sy;
    repeat match goal with
    | H : _ /\ _ |- _ => destruct H
    | H : exists _, _ |- _ => destruct H
    | H : under _ _ _ |- _ => let v := fresh "v" in destruct H as (v & ? & ?)
    end; subst.
  - rewrite L. unfold getattr. repeat match goal with H : attr ?x ?y = _ |- context [attr ?x ?y] => rewrite H end. cbn [bind].
    erewrite obj2R_says by eassumption. cbn [bind].
    repeat match goal with H : attr ?x ?y = _ |- context [attr ?x ?y] => rewrite H end. cbn [bind].
    erewrite obj2p_says by eassumption. reflexivity.
  - pose proof (N KTransform (le_n _)) as N1. cbn [fields_of fst snd] in N1. rewrite N1, L.
    unfold get_str, getattr. repeat (match goal with H : attr ?x ?y = _ |- context [attr ?x ?y] => rewrite H end; cbn [bind]).
    erewrite obj2R_says by eassumption. cbn [bind].
    repeat (match goal with H : attr ?x ?y = _ |- context [attr ?x ?y] => rewrite H end; cbn [bind]).
    erewrite obj2p_says by eassumption. cbn [bind].
    repeat (match goal with H : attr ?x ?y = _ |- context [attr ?x ?y] => rewrite H end; cbn [bind]). reflexivity.
  - pose proof (N KTransform ltac:(simpl; auto)) as N1. pose proof (N KTransformStamped ltac:(simpl; auto)) as N2.
    cbn [fields_of fst snd] in N1, N2. rewrite N1, N2, L.
    unfold getattr. repeat (match goal with H : attr ?x ?y = _ |- context [attr ?x ?y] => rewrite H end; cbn [bind]).
    erewrite obj2R_says by eassumption. cbn [bind].
    repeat (match goal with H : attr ?x ?y = _ |- context [attr ?x ?y] => rewrite H end; cbn [bind]).
    erewrite obj2p_says by eassumption. reflexivity.
  - pose proof (N KTransform ltac:(simpl; auto)) as N1. pose proof (N KTransformStamped ltac:(simpl; auto)) as N2.
    pose proof (N KPose ltac:(simpl; auto)) as N3. cbn [fields_of fst snd] in N1, N2, N3. rewrite N1, N2, N3, L.
    unfold get_str, getattr. repeat (match goal with H : attr ?x ?y = _ |- context [attr ?x ?y] => rewrite H end; cbn [bind]).
    erewrite obj2R_says by eassumption. cbn [bind].
    repeat (match goal with H : attr ?x ?y = _ |- context [attr ?x ?y] => rewrite H end; cbn [bind]).
    erewrite obj2p_says by eassumption. cbn [bind].
    repeat (match goal with H : attr ?x ?y = _ |- context [attr ?x ?y] => rewrite H end; cbn [bind]). reflexivity.
Qed.
(** An object of none of the four kinds raises AssertionError, and only those do. *)
Theorem C58_others : forall o, (forall k, ~ looks_like o k) <-> msg2transform o = Err AssertionError.
Proof.
  assert (GN : forall o k, get_num o k <> Err AssertionError).
  { intros o k. unfold get_num, getattr. destruct (attr o k) as [[]|]; discriminate. }
  assert (GS : forall o k, get_str o k <> Err AssertionError).
  { intros o k. unfold get_str, getattr. destruct (attr o k) as [[]|]; discriminate. }
  assert (GA : forall o k, getattr o k <> Err AssertionError).
  { intros o k. unfold getattr. destruct (attr o k); discriminate. }
  assert (BN : forall A B (x : out A) (f : A -> out B), x <> Err AssertionError -> (forall a, f a <> Err AssertionError) -> bind x f <> Err AssertionError).
  { intros A B [a|e] f H1 H2; simpl; auto. congruence. }
  assert (GR : forall o, obj2R o <> Err AssertionError).
  { intros o. unfold obj2R. repeat (apply BN; [apply GN|intros ?]). discriminate. }
  assert (GP : forall o, obj2p o <> Err AssertionError).
  { intros o. unfold obj2p. repeat (apply BN; [apply GN|intros ?]). discriminate. }
  intros o. unfold msg2transform. split.
  - intros H.
    pose proof (fun k => H k) as H'. 
    assert (X : forall k, (hasattr o (fst (fields_of k)) && hasattr o (snd (fields_of k)))%bool = false).
    { intros k. destruct (_ && _)%bool eqn:E; auto. apply hasattr2 in E. destruct (H k E). }
    pose proof (X KTransform) as X1. pose proof (X KTransformStamped) as X2. pose proof (X KPose) as X3.
    pose proof (X KPoseStamped) as X4. cbn [fields_of fst snd] in *. rewrite X1, X2, X3, X4. reflexivity.
  - destruct (hasattr o "translation" && hasattr o "rotation")%bool eqn:A1;
    [|destruct (hasattr o "header" && hasattr o "transform")%bool eqn:A2;
      [|destruct (hasattr o "position" && hasattr o "orientation")%bool eqn:A3;
        [|destruct (hasattr o "header" && hasattr o "pose")%bool eqn:A4]]];
    intros E;
    try (exfalso; revert E; repeat (apply BN; [first [apply GA|apply GS|apply GR|apply GP]|intros ?]); discriminate).
    intros []; (eapply like_not; [reflexivity|cbn [fields_of]; eassumption]).
Qed.
(** A real message of each kind, and an object that is none. *)
Example C58_ex : exists q v, unit4 q /\ q2R q <> I3 /\
  let r := Quaternion_obj q in let p := Vector3_obj v in
  first_like (Transform_obj p r) KTransform /\ says (Transform_obj p r) KTransform q v None None /\
  first_like (Pose_obj p r) KPose /\ says (Pose_obj p r) KPose q v None None /\
  first_like (PoseStamped_obj (Header_obj "map") (Pose_obj p r)) KPoseStamped /\
  says (PoseStamped_obj (Header_obj "map") (Pose_obj p r)) KPoseStamped q v (Some "map"%string) None /\
  first_like (TransformStamped_obj (Header_obj "map") (Str "odom") (Transform_obj p r)) KTransformStamped /\
  says (TransformStamped_obj (Header_obj "map") (Str "odom") (Transform_obj p r)) KTransformStamped q v
    (Some "map"%string) (Some "odom"%string) /\
  (forall k, ~ looks_like p k) /\ msg2transform p = Err AssertionError.
Proof.
  exists (Q4 0 (3/5) (4/5) 0), (V3 1 2 3).
  split; [unfold unit4, qdot; simpl; lra|]. split; [intros E; apply (f_equal m00) in E; rot_unfold; lra|].
  cbv zeta.
  assert (L : forall o k, first_like o k <-> looks_like o k /\ forall k', looks_like o k' -> (rank k <= rank k')%nat) by (intros; reflexivity).
  Ltac like := split; [split; unfold has; discriminate|]; intros [] [? ?]; simpl; auto; unfold has in *; exfalso;
    match goal with H : ?x <> None |- _ => apply H; reflexivity end.
  Ltac said := cbv [says says_transform says_pose under has_quaternion has_vector says_frame]; repeat (split || eexists).
  split; [like|]. split; [said|]. split; [like|]. split; [said|]. split; [like|]. split; [said|]. split; [like|]. split; [said|].
  split; [|reflexivity]. intros [] [? ?]; unfold has in *; match goal with H : ?x <> None |- _ => apply H; reflexivity end.
Qed.
Print Assumptions C58_reads.
Print Assumptions C58_dispatch.
Print Assumptions C58_others.

(* ================= C59 ================= *)
Theorem C59_lookup : forall t q target source, unit4 q -> exists T,
  lookup_transform (Ok ([vx t; vy t; vz t], [q1 q; q2 q; q3 q; q0 q])) target source = Ok T /\
  rigid T /\ (forall x, act T x = vadd (sandwich q x) t) /\ t_parent T = Some target /\ t_child T = Some source.
Proof.
  intros [a b c] [w x y z] tg sr U. eexists. split; [reflexivity|]. cbn [t_parent t_child vx vy vz q0 q1 q2 q3].
  split; [apply q2R_SO3, U|]. split; [|auto]. intros p. unfold act. cbn [tR tp]. rewrite q2R_sandwich by exact U. reflexivity.
Qed.
(** What the listener raises is passed on. *)
Theorem C59_raises : forall e target source, lookup_transform (Err e) target source = Err e.
Proof. reflexivity. Qed.
(** For a listener that answers from a tree of frames: a lookup is the motion between the
    two frames, lookups compose, and the lookup the other way round is the inverse. *)
Theorem C59_tree : forall pose a b ans, (forall f, rigid (pose f)) -> true_answer pose a b ans ->
  lookup_transform (Ok ans) a b =
    Ok (Tf (tR (tmul (tinv (pose a)) (pose b))) (tp (tmul (tinv (pose a)) (pose b))) (Some a) (Some b)).
Proof.
  intros pose a b ans Hp (t & q & -> & U & E). destruct (C59_lookup t q a b U) as (T & L & Rg & A & P & C).
  rewrite L. f_equal. destruct T as [TR Tp Tpa Tch]. cbn [t_parent t_child] in P, C. subst.
  assert (M : same_motion (Tf TR Tp (Some a) (Some b)) (tmul (tinv (pose a)) (pose b))).
  { apply act_inj. intros x. rewrite act_tmul, <- E, <- A. symmetry. apply (act_tinv (pose a)), Hp. }
  destruct M as [M1 M2]. cbn [tR tp] in M1, M2. rewrite M1, M2. reflexivity.
Qed.
Theorem C59_compose : forall pose a b c ab bc ac, (forall f, rigid (pose f)) ->
  true_answer pose a b ab -> true_answer pose b c bc -> true_answer pose a c ac ->
  exists T1 T2, lookup_transform (Ok ab) a b = Ok T1 /\ lookup_transform (Ok bc) b c = Ok T2 /\
    lookup_transform (Ok ac) a c = Ok (tmul T1 T2).
Proof.
  intros pose a b c ab bc ac Hp H1 H2 H3.
  rewrite (C59_tree _ _ _ _ Hp H1), (C59_tree _ _ _ _ Hp H2), (C59_tree _ _ _ _ Hp H3).
  do 2 eexists. split; [reflexivity|]. split; [reflexivity|]. f_equal.
  match goal with |- ?X = tmul ?Y ?Z => assert (M : same_motion X (tmul Y Z)) end.
  { apply act_inj. intros x. rewrite !act_tmul.
    assert (N : forall u v l m y, act (Tf (tR (tmul (tinv (pose u)) (pose v))) (tp (tmul (tinv (pose u)) (pose v))) l m) y
      = act (tinv (pose u)) (act (pose v) y)) by (intros; rewrite <- act_tmul; reflexivity).
    rewrite !N. f_equal. symmetry. apply (act_tinv (pose b)), Hp. }
  destruct M as [M1 M2]. unfold tmul at 5. cbn [t_parent t_child]. 
  match goal with |- Tf ?r1 ?p1 _ _ = _ => change r1 with (tR (Tf r1 p1 (Some a) (Some c))) end.
  unfold tmul in *. cbn [tR tp t_parent t_child] in *. rewrite M1, M2. reflexivity.
Qed.
Theorem C59_inverse : forall pose a b ab ba, (forall f, rigid (pose f)) ->
  true_answer pose a b ab -> true_answer pose b a ba ->
  exists T, lookup_transform (Ok ab) a b = Ok T /\ lookup_transform (Ok ba) b a = Ok (tinv T).
Proof.
  intros pose a b ab ba Hp H1 H2. rewrite (C59_tree _ _ _ _ Hp H1), (C59_tree _ _ _ _ Hp H2).
  eexists. split; [reflexivity|]. f_equal.
  match goal with |- ?X = tinv ?Y => assert (M : same_motion X (tinv Y)) end.
  { apply act_inj. intros x.
    assert (N : forall u v l m y, act (Tf (tR (tmul (tinv (pose u)) (pose v))) (tp (tmul (tinv (pose u)) (pose v))) l m) y
      = act (tinv (pose u)) (act (pose v) y)) by (intros; rewrite <- act_tmul; reflexivity).
    match goal with |- _ = act (tinv ?Y) x => assert (RY : rigid Y) end.
    { unfold rigid. cbn [tR]. unfold tmul. cbn [tR]. apply SO3_mmul; [apply SO3_T|]; apply Hp. }
    rewrite N at 1. match goal with |- _ = act (tinv ?Y) x => rewrite <- (proj1 (act_tinv Y (act (tinv (pose b)) (act (pose a) x)) RY)) end.
    f_equal. rewrite N.
    rewrite (proj2 (act_tinv (pose b) _ (Hp b))), (proj1 (act_tinv (pose a) _ (Hp a))). reflexivity. }
  destruct M as [M1 M2]. unfold tmul, tinv in *. cbn [tR tp t_parent t_child] in *. rewrite M1, M2. reflexivity.
Qed.
(** Two frames a quarter turn apart. *)
Definition pose_ex (f : string) : transform :=
  if String.eqb f "map" then Tf I3 vzero None None else Tf (rot (V3 0 0 1) (PI/2)) (V3 1 2 3) None None.
Example C59_ex : (forall f, rigid (pose_ex f)) /\
  true_answer pose_ex "map" "base" ([1; 2; 3], [0; 0; sqrt (1/2); sqrt (1/2)]).
Proof.
  assert (U : unit3 (V3 0 0 1)) by (unfold unit3; la_unfold; lra).
  split.
  - intros f. unfold pose_ex. destruct (String.eqb f "map"); unfold rigid; cbn [tR]; [apply SO3_I|apply rot_SO3, U].
  - exists (V3 1 2 3), (Q4 (sqrt (1/2)) 0 0 (sqrt (1/2))). split; [reflexivity|].
    assert (Q : sqrt (1/2) * sqrt (1/2) = 1/2) by (apply sqrt_sqrt; lra).
    split; [unfold unit4, qdot; cbn [q0 q1 q2 q3]; lra|].
    intros [x y z]. unfold pose_ex, act. cbn [String.eqb Ascii.eqb Bool.eqb tR tp].
    rot_unfold. rewrite cos_PI2, sin_PI2. generalize dependent (sqrt (1/2)). intros s Q.
    pose proof (f_equal (fun r => r * x) Q). pose proof (f_equal (fun r => r * y) Q). pose proof (f_equal (fun r => r * z) Q).
    cbv beta in *. f_equal; ring_simplify; ring_simplify in H; ring_simplify in H0; ring_simplify in H1; lra.
Qed.
Print Assumptions C59_lookup.
Print Assumptions C59_raises.
Print Assumptions C59_tree.
Print Assumptions C59_compose.
Print Assumptions C59_inverse.

(* ================= C70 ================= *)
(** Quaternions are not normalised when read: exactly the unit ones, and those without a
    vector part, give rotations. *)
Lemma q2R_SO3_iff q : is_SO3 (q2R q) <-> unit4 q \/ qvec q = vzero.
Proof.
  split.
  - intros [_ D]. destruct q as [w x y z].
    assert (K : (x * x + y * y + z * z) * (w * w + x * x + y * y + z * z - 1) = 0).
    { revert D. rot_unfold. intros D.
      apply (Rmult_eq_reg_l 4); [|lra]. rewrite Rmult_0_r. rewrite <- (Rminus_diag_eq _ _ D). ring. }
    apply Rmult_integral in K. destruct K as [K|K].
    + right. unfold qvec, vzero. cbn [q1 q2 q3]. f_equal; nra.
    + left. unfold unit4, qdot. cbn [q0 q1 q2 q3]. lra.
  - intros [U|V]; [exact (q2R_SO3 q U)|]. destruct q as [w x y z]. unfold qvec, vzero in V. cbn [q1 q2 q3] in V.
    injection V as -> -> ->. replace (q2R (Q4 w 0 0 0)) with I3 by (rot_unfold; f_equal; ring). exact SO3_I.
Qed.
Theorem C70_rigid_iff : forall o k q p parent child T, first_like o k -> says o k q p parent child ->
  msg2transform o = Ok T -> (rigid T <-> unit4 q \/ qvec q = vzero).
Proof.
  intros o k q p pa ch T F Sy E. rewrite (C58_dispatch _ _ _ _ _ _ F Sy) in E. injection E as <-.
  exact (q2R_SO3_iff q).
Qed.
Theorem C70_lookup_iff : forall t q target source T,
  lookup_transform (Ok ([vx t; vy t; vz t], [q1 q; q2 q; q3 q; q0 q])) target source = Ok T ->
  (rigid T <-> unit4 q \/ qvec q = vzero).
Proof. intros t [w x y z] tg sr T E. injection E as <-. exact (q2R_SO3_iff (Q4 w x y z)). Qed.
(** The rotation is not even that of the normalised quaternion. *)
Theorem C70_direction_refuted : exists q, qdot q q <> 0 /\ ~ is_SO3 (q2R q) /\
  exists m, m = Transform_obj (Vector3_obj vzero) (Quaternion_obj q) /\
    forall T, msg2transform m = Ok T -> ~ rigid T.
Proof.
  exists (Q4 1 1 0 0). split; [unfold qdot; simpl; lra|].
  assert (N : ~ is_SO3 (q2R (Q4 1 1 0 0))).
  { rewrite q2R_SO3_iff. intros [U|V]; [unfold unit4, qdot in U; simpl in U; lra|].
    apply (f_equal vx) in V. simpl in V. lra. }
  split; [exact N|]. eexists. split; [reflexivity|]. intros T E. injection E as <-. exact N.
Qed.
Example C70_ex : unit4 (Q4 0 (3/5) (4/5) 0) /\ qvec (Q4 0 (3/5) (4/5) 0) <> vzero.
Proof. split; [unfold unit4, qdot; simpl; lra|]. intros V. apply (f_equal vx) in V. simpl in V. lra. Qed.
Print Assumptions C70_rigid_iff.
Print Assumptions C70_lookup_iff.
Print Assumptions C70_direction_refuted.
