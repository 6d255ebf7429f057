(** Properties C44-C46: equivalent_configurations. *)
From Coq Require Import Reals ZArith List Bool Lia Lra Psatz Sorting.Permutation Sorting.Sorted.
From Verif Require Import LinAlg RealAux Py FactsReal FactsLinAlg SpecRot
  ModelTransform ModelRobot ModelKin SpecKin FactsKin FactsJac ModelInvkin SpecInvkin FactsInvkin FactsIkMut SpecEquiv FactsEquiv PropInvkin.
Import ListNotations.
Open Scope R_scope.

(** A turning joint with one and a half turns either way, then a sliding joint *)
Definition rp : robot :=
  Rb [ez; ez] [vzero; ex; ex] [Rotary; Prismatic] (Some [-3 * PI; -10]) (Some [3 * PI; 10]) None None None None None None None None None None.
Lemma rp_wf : wf_robot rp.
Proof.
  split; simpl; auto; try (intros l E; inversion E; reflexivity).
  repeat apply Forall_cons; try apply Forall_nil; unfold unit3, dot, ez; simpl; ring.
Qed.
Lemma rp_within x y : within_limits rp [x; y] <-> -3 * PI <= x <= 3 * PI /\ -10 <= y <= 10.
Proof.
  unfold within_limits. simpl. split.
  - intros [A B]. repeat match goal with F : Forall2 _ (_ :: _) _ |- _ => inversion F; clear F; subst end. lra.
  - intros [A B]. split; repeat apply Forall2_cons; try apply Forall2_nil; lra.
Qed.
Lemma rp_turns x y a b : whole_turns (rtype rp) [x; y] [a; b] <-> ang_eq a x /\ b = y.
Proof.
  simpl. split.
  - intros W. inversion W as [|ty x' a' la lb A W1|j ty x' la lb N W1]; subst; [|congruence]. split; auto. inversion W1; reflexivity.
  - intros [A ->]. constructor; auto. constructor; [discriminate|constructor].
Qed.
Lemma alternative_len r a b : alternative r a b -> length a = length (rtype r) /\ length b = length (rtype r).
Proof. intros (_ & W & _). apply whole_turns_nth in W as (A & B & _). auto. Qed.
Lemma neq_hd (a b : R) la lb : a <> b -> a :: la <> b :: lb.
Proof. intros N E. inversion E. auto. Qed.

(** * C44: exactly the whole-turn alternatives *)
(** One configuration: each alternative is listed, once, and nothing else. *)
Theorem C44_one : forall argsort r lo up theta, wf_robot r -> rlower r = Some lo -> rupper r = Some up ->
  length theta = length (rtype r) -> within_limits r theta ->
  exists sols, equivalent_configurations argsort r [theta] None = Ok sols /\ NoDup sols /\
               forall q, In q sols <-> alternative r theta q.
Proof.
  intros argsort r lo up theta W El Eu L WI. destruct (equiv1_spec r lo up theta W El Eu L WI) as (sols & E & N & H).
  exists sols. split; auto. unfold equivalent_configurations. cbn [flat_map_out]. rewrite E. cbn [bind]. rewrite app_nil_r. reflexivity.
Qed.
Lemma flat_map_out_lists {A B} (f : A -> out (list B)) (Q : A -> list B -> Prop) l :
  (forall x, In x l -> exists ys, f x = Ok ys /\ Q x ys) ->
  exists lists, flat_map_out f l = Ok (concat lists) /\ Forall2 Q l lists.
Proof.
  induction l as [|x l IH]; intros H. { exists []. simpl. auto. }
  destruct (H x) as (ys & E & G); [simpl; auto|]. destruct IH as (ls & El & F). { intros z I. apply H. simpl; auto. }
  exists (ys :: ls). simpl. rewrite E, El. auto.
Qed.
(** A list of configurations: the lists of the single ones together, sorted by the distance to
    last_joints if that is given. *)
Theorem C44_list : forall argsort, argsort_spec argsort ->
  forall r lo up thetas, wf_robot r -> rlower r = Some lo -> rupper r = Some up ->
  (forall theta, In theta thetas -> length theta = length (rtype r) /\ within_limits r theta) ->
  exists lists, Forall2 (fun theta sols => NoDup sols /\ forall q, In q sols <-> alternative r theta q) thetas lists /\
  equivalent_configurations argsort r thetas None = Ok (concat lists) /\
  (forall lj res, equivalent_configurations argsort r thetas (Some lj) = Ok res ->
     Permutation res (concat lists) /\ nearest_first (fun q => euclid q lj) res) /\
  (forall lj, length lj = length (rtype r) -> (exists theta q, In theta thetas /\ alternative r theta q) ->
     exists res, equivalent_configurations argsort r thetas (Some lj) = Ok res).
Proof.
  intros argsort SP r lo up thetas W El Eu H.
  destruct (flat_map_out_lists (equiv1 r) (fun theta sols => NoDup sols /\ forall q, In q sols <-> alternative r theta q) thetas) as (lists & E & F).
  { intros theta I. destruct (H theta I) as [L WI]. destruct (equiv1_spec r lo up theta W El Eu L WI) as (sols & Es & G). eauto. }
  exists lists. split; auto. unfold equivalent_configurations. rewrite E. cbn [bind]. split; [reflexivity|]. split.
  - intros lj res S. apply (sort_last argsort SP) in S as (_ & P & S). auto.
  - intros lj L (theta & q & I & A).
    apply (sort_some argsort SP (Some lj) (concat lists) (length (rtype r)) q).
    + intros l X. inversion X; subst; auto.
    + clear -F I A. induction F as [|t s ts ss [_ G] F IH]; simpl in *; [tauto|]. apply in_app_iff. destruct I as [->|I]; [left; apply G; auto|right; auto].
    + clear -F. induction F as [|t s ts ss [_ G] F IH]; simpl; intros x I; [tauto|]. apply in_app_iff in I as [I|I]; auto.
      apply G in I. apply alternative_len in I. tauto.
Qed.
(** No repetition across the list either, unless two inputs are alternatives of each other. *)
Theorem C44_distinct : forall argsort r lo up thetas sols, wf_robot r -> rlower r = Some lo -> rupper r = Some up ->
  (forall theta, In theta thetas -> length theta = length (rtype r) /\ within_limits r theta) ->
  NoDup thetas -> (forall a b, In a thetas -> In b thetas -> ~ alternative r a b) ->
  equivalent_configurations argsort r thetas None = Ok sols ->
  NoDup sols /\ forall q, In q sols -> ~ In q thetas.
Proof.
  intros argsort r lo up thetas sols W El Eu H N D. unfold equivalent_configurations.
  assert (TR : forall a b c, alternative r a c -> alternative r b c -> whole_turns (rtype r) a b).
  { intros a b c (_ & A & _) (_ & B & _). apply whole_turns_nth in A as (L1 & L2 & A). apply whole_turns_nth in B as (L3 & L4 & B).
    apply whole_turns_nth. repeat split; auto. intros i Li. specialize (A i Li). specialize (B i Li).
    destruct (match nth i (rtype r) Mobile2 with Rotary => true | _ => false end); [|congruence].
    eapply ang_eq_trans; [apply ang_eq_sym; eauto|auto]. }
  assert (G : exists lists, flat_map_out (equiv1 r) thetas = Ok (concat lists) /\ Forall2 (fun theta sols => NoDup sols /\ forall q, In q sols <-> alternative r theta q) thetas lists).
  { apply flat_map_out_lists. intros theta I. destruct (H theta I) as [L WI]. destruct (equiv1_spec r lo up theta W El Eu L WI) as (s & Es & G). eauto. }
  destruct G as (lists & E & F). rewrite E. cbn [bind]. rewrite sort_no_last. intros X. inversion X; subst sols. clear X E.
  assert (IN : forall ts ls, Forall2 (fun theta sols => NoDup sols /\ forall q, In q sols <-> alternative r theta q) ts ls ->
               forall q, In q (concat ls) -> exists t, In t ts /\ alternative r t q).
  { induction 1 as [|t s ts ss [_ G] F' IH]; simpl; intros q I; [tauto|]. apply in_app_iff in I as [I|I].
    - exists t. split; auto. apply G; auto.
    - destruct (IH q I) as (t' & I' & A). eauto. }
  split.
  - induction F as [|t s ts ss [Ns G] F IH]; simpl; [constructor|]. inversion N; subst. apply NoDup_app; auto.
    + apply IH; auto. intros theta I; apply H; simpl; auto. intros a b Ia Ib; apply D; simpl; auto.
    + intros q I J. apply G in I. destruct (IN _ _ F q J) as (t' & I' & A').
      apply (D t t'); simpl; auto. split; [intros ->; auto|]. split; [eapply TR; eauto|]. apply H; simpl; auto.
  - intros q I J. destruct (IN _ _ F q I) as (t & It & A). apply (D t q); auto.
Qed.
(** Repetition when they are: both middle positions come back twice. *)
Theorem C44_once_refuted : exists r thetas sols, wf_robot r /\ NoDup thetas /\
  (forall theta, In theta thetas -> length theta = length (rtype r) /\ within_limits r theta) /\
  (forall argsort, equivalent_configurations argsort r thetas None = Ok sols) /\ ~ NoDup sols.
Proof.
  pose proof PI_pos as PP.
  assert (W0 : within_limits rp [0; 0]) by (apply rp_within; lra).
  assert (W1 : within_limits rp [2 * PI; 0]) by (apply rp_within; lra).
  destruct (equiv1_spec rp _ _ [0; 0] rp_wf eq_refl eq_refl eq_refl W0) as (s0 & E0 & N0 & H0).
  destruct (equiv1_spec rp _ _ [2 * PI; 0] rp_wf eq_refl eq_refl eq_refl W1) as (s1 & E1 & N1 & H1).
  exists rp, [[0; 0]; [2 * PI; 0]], (s0 ++ s1). split; [apply rp_wf|]. split; [|split; [|split]].
  - constructor. { intros [I|[]]. inversion I; lra. } constructor; [simpl; tauto|constructor].
  - intros theta [<-|[<-|[]]]; auto.
  - intros argsort. unfold equivalent_configurations. cbn [flat_map_out]. rewrite E0, E1. cbn [bind]. rewrite app_nil_r. reflexivity.
  - assert (I0 : In [-2 * PI; 0] s0).
    { apply H0. split; [apply neq_hd; lra|]. split; [apply rp_turns; split; auto; exists (-1)%Z; lra|apply rp_within; lra]. }
    assert (I1 : In [-2 * PI; 0] s1).
    { apply H1. split; [apply neq_hd; lra|]. split; [apply rp_turns; split; auto; exists (-2)%Z; lra|apply rp_within; lra]. }
    intros N. clear -N I0 I1. induction s0 as [|x s0 IH]; [destruct I0|]. inversion N as [|y ys NI N2 EY]; subst. destruct I0 as [->|I0]; auto.
    apply NI. apply in_app_iff; auto.
Qed.
(** With last_joints and nothing to return the call raises instead of returning the empty list. *)
Theorem C44_last_raises : forall argsort r lo up thetas lj, wf_robot r -> rlower r = Some lo -> rupper r = Some up ->
  (forall theta, In theta thetas -> length theta = length (rtype r) /\ within_limits r theta) ->
  (forall theta q, In theta thetas -> ~ alternative r theta q) ->
  equivalent_configurations argsort r thetas (Some lj) = Err ValueError /\
  equivalent_configurations argsort r thetas None = Ok [].
Proof.
  intros argsort r lo up thetas lj W El Eu H D.
  assert (E : flat_map_out (equiv1 r) thetas = Ok []).
  { apply flat_map_out_nil. intros theta I. destruct (H theta I) as [L WI]. destruct (equiv1_spec r lo up theta W El Eu L WI) as (s & Es & _ & G).
    rewrite Es. destruct s as [|x s]; auto. exfalso. apply (D theta x I). apply G. simpl; auto. }
  unfold equivalent_configurations. rewrite E. auto.
Qed.
Theorem C44_last_refuted : exists r theta lj, wf_robot r /\ length theta = length (rtype r) /\ within_limits r theta /\
  forall argsort, equivalent_configurations argsort r [theta] (Some lj) = Err ValueError.
Proof.
  exists r_lim, [0; 0; 0; 0; 0; 0], [0; 0; 0; 0; 0; 0]. pose proof PI_lower as P3.
  assert (WI : within_limits r_lim [0; 0; 0; 0; 0; 0]).
  { unfold within_limits; simpl. split; repeat apply Forall2_cons; try apply Forall2_nil; lra. }
  split; [apply r_lim_wf|]. split; [reflexivity|]. split; auto. intros argsort.
  apply (C44_last_raises argsort r_lim lo3s up3s); auto using r_lim_wf.
  - intros theta [<-|[]]; auto.
  - intros theta q [<-|[]] (NE & W & WQ). apply NE.
    assert (Z : forall a, ang_eq a 0 -> -3 <= a <= 3 -> a = 0).
    { intros a [k Ek] B. assert (K : (-1 < k < 1)%Z).
      { split; apply lt_IZR; [apply Rmult_lt_reg_r with (2 * PI)|apply Rmult_lt_reg_r with (2 * PI)]; lra. }
      assert (k = 0)%Z by lia. subst. lra. }
    unfold within_limits in WQ. simpl in WQ, W. destruct WQ as [A B]. unfold lo3s, up3s in *.
    repeat match goal with F : Forall2 _ (_ :: _) _ |- _ => inversion F; clear F; subst end.
    repeat match goal with F : Forall2 _ [] _ |- _ => inversion F; clear F; subst end.
    repeat match goal with F : whole_turns (Rotary :: _) _ _ |- _ => inversion F; clear F; subst; try congruence end.
    repeat (f_equal; try (apply Z; [assumption|lra])).
Qed.
(** Without limits the call fails: None cannot be subtracted from. *)
Theorem C44_no_limits : forall argsort r theta thetas last, no_limits r ->
  equivalent_configurations argsort r (theta :: thetas) last = Err TypeError.
Proof.
  intros argsort r theta thetas last [E|E]; unfold equivalent_configurations, equiv1; simpl; rewrite E; [reflexivity|].
  destruct (rlower r); reflexivity.
Qed.
Example C44_ex : within_limits rp [0; 0] /\ alternative rp [0; 0] [2 * PI; 0] /\ alternative rp [0; 0] [-2 * PI; 0] /\
  ~ alternative rp [0; 0] [4 * PI; 0] /\ ~ alternative rp [0; 0] [0; 2 * PI] /\ ~ alternative rp [0; 0] [0; 0].
Proof.
  pose proof PI_pos as PP. repeat split.
  - apply Forall2_cons; [lra|]. apply Forall2_cons; [lra|constructor].
  - apply Forall2_cons; [lra|]. apply Forall2_cons; [lra|constructor].
  - apply neq_hd; lra.
  - apply rp_turns; split; auto; exists 1%Z; lra.
  - apply Forall2_cons; [lra|]. apply Forall2_cons; [lra|constructor].
  - apply Forall2_cons; [lra|]. apply Forall2_cons; [lra|constructor].
  - apply neq_hd; lra.
  - apply rp_turns; split; auto; exists (-1)%Z; lra.
  - apply Forall2_cons; [lra|]. apply Forall2_cons; [lra|constructor].
  - apply Forall2_cons; [lra|]. apply Forall2_cons; [lra|constructor].
  - intros (_ & _ & A). apply rp_within in A. lra.
  - intros (_ & A & _). apply rp_turns in A as [_ A]. lra.
  - intros (A & _). congruence.
Qed.

(** * C45: only additional configurations *)
(** Never the configuration it was made from; an input is returned exactly when it is an
    alternative of another input. *)
Theorem C45_returned_inputs : forall argsort, argsort_spec argsort ->
  forall r lo up thetas last res, wf_robot r -> rlower r = Some lo -> rupper r = Some up ->
  (forall theta, In theta thetas -> length theta = length (rtype r) /\ within_limits r theta) ->
  equivalent_configurations argsort r thetas last = Ok res ->
  forall q, In q thetas -> (In q res <-> exists theta, In theta thetas /\ theta <> q /\ whole_turns (rtype r) theta q).
Proof.
  intros argsort SP r lo up thetas last res W El Eu H E q I. unfold equivalent_configurations in E.
  destruct (flat_map_out (equiv1 r) thetas) as [sols|] eqn:F; [|discriminate]. cbn [bind] in E.
  rewrite (sort_in argsort SP last sols res E q), (flat_map_out_in _ _ _ F q). split.
  - intros (theta & ys & It & Ey & Iq). destruct (H theta It) as [L WI].
    destruct (equiv1_spec r lo up theta W El Eu L WI) as (s & Es & _ & G). rewrite Es in Ey. inversion Ey; subst.
    apply G in Iq as (N & T & _). exists theta. auto.
  - intros (theta & It & N & T). destruct (H theta It) as [L WI].
    destruct (equiv1_spec r lo up theta W El Eu L WI) as (s & Es & _ & G). exists theta, s. repeat split; auto.
    apply G. split; auto. split; auto. apply H; auto.
Qed.
(** Two equivalent inputs return each other: the closeness test on lines 382-384 does nothing. *)
Theorem C45_refuted : exists r thetas sols q, wf_robot r /\
  (forall theta, In theta thetas -> length theta = length (rtype r) /\ within_limits r theta) /\
  (forall argsort, equivalent_configurations argsort r thetas None = Ok sols) /\ In q thetas /\ In q sols.
Proof.
  pose proof PI_pos as PP.
  assert (W0 : within_limits rp [0; 0]) by (apply rp_within; lra).
  assert (W1 : within_limits rp [2 * PI; 0]) by (apply rp_within; lra).
  destruct (equiv1_spec rp _ _ [0; 0] rp_wf eq_refl eq_refl eq_refl W0) as (s0 & E0 & N0 & H0).
  destruct (equiv1_spec rp _ _ [2 * PI; 0] rp_wf eq_refl eq_refl eq_refl W1) as (s1 & E1 & N1 & H1).
  exists rp, [[0; 0]; [2 * PI; 0]], (s0 ++ s1), [2 * PI; 0]. split; [apply rp_wf|]. split; [|split; [|split]].
  - intros theta [<-|[<-|[]]]; auto.
  - intros argsort. unfold equivalent_configurations. cbn [flat_map_out]. rewrite E0, E1. cbn [bind]. rewrite app_nil_r. reflexivity.
  - simpl; auto.
  - apply in_app_iff. left. apply H0. split; [apply neq_hd; lra|]. split; auto. apply rp_turns; split; auto; exists 1%Z; lra.
Qed.
Example C45_ex : (forall theta, In theta [[0; 0]; [1; 0]] -> length theta = length (rtype rp) /\ within_limits rp theta) /\
  forall a b, In a [[0; 0]; [1; 0]] -> In b [[0; 0]; [1; 0]] -> ~ alternative rp a b.
Proof.
  pose proof PI_lower as PP. split.
  - intros theta [<-|[<-|[]]]; split; auto; apply rp_within; lra.
  - assert (N : forall k, IZR k * (2 * PI) <> 1 /\ IZR k * (2 * PI) <> -1).
    { intros k. split; intros E.
      - assert (0 < k < 1)%Z. { split; apply lt_IZR; apply Rmult_lt_reg_r with (2 * PI); lra. } lia.
      - assert (-1 < k < 0)%Z. { split; apply lt_IZR; apply Rmult_lt_reg_r with (2 * PI); lra. } lia. }
    intros a b [<-|[<-|[]]] [<-|[<-|[]]] (NE & T & _); try congruence; apply rp_turns in T as [[k Ek] _]; destruct (N k); lra.
Qed.

(** * C46: same pose, inside the limits *)
(** Whatever the source, the pose is the same. *)
Lemma equiv1_turns r theta sols q : length theta = length (rtype r) -> equiv1 r theta = Ok sols -> In q sols -> whole_turns (rtype r) theta q.
Proof.
  intros L E I. unfold equiv1 in E. destruct (rlower r) as [lo|]; [|discriminate]. destruct (rupper r) as [up|]; [|discriminate].
  destruct (Nat.eqb _ _ && Nat.eqb _ _)%bool; [|discriminate]. inversion E; subst sols. clear E.
  set (U := map _ (combine theta up)) in *. set (D := map _ (combine theta lo)) in *.
  destruct (fold_reached theta (rtype r) U D (length theta)) as [_ H]; auto. set (found := fold_left _ _ []) in *.
  assert (J : In q (found ++ [theta])) by (apply in_app_iff; auto). apply H in J as [Lq R].
  apply whole_turns_nth. repeat split; try lia. intros i Li. specialize (R i ltac:(lia)). rewrite (proj2 (Nat.ltb_lt i (length theta))) in R by lia.
  destruct R as (z & Iz & Ez). rewrite (nth_error_nth0 _ Mobile2) in Iz by lia. unfold turns_of in Iz.
  destruct (nth i (rtype r) Mobile2); [exists z; rewrite Ez; ring|..]; destruct Iz as [<-|[]]; rewrite Ez; lra.
Qed.
Lemma whole_same ty a b : whole_turns ty a b -> same_turns ty a b.
Proof. induction 1; [constructor|apply st_turn; auto using ang_eq_sym|apply st_same; auto]. Qed.
Theorem C46_pose : forall argsort, argsort_spec argsort -> forall r thetas last res q,
  (forall theta, In theta thetas -> length theta = length (rtype r)) ->
  equivalent_configurations argsort r thetas last = Ok res -> In q res ->
  exists theta, In theta thetas /\ fwdkin r q true = fwdkin r theta true /\ robotjacobian r q true = robotjacobian r theta true.
Proof.
  intros argsort SP r thetas last res q H E I. unfold equivalent_configurations in E.
  destruct (flat_map_out (equiv1 r) thetas) as [sols|] eqn:F; [|discriminate]. cbn [bind] in E.
  rewrite (sort_in argsort SP last sols res E q), (flat_map_out_in _ _ _ F q) in I. destruct I as (theta & ys & It & Ey & Iq).
  exists theta. split; auto. pose proof (whole_same _ _ _ (equiv1_turns r theta ys q (H theta It) Ey Iq)) as S.
  rewrite (fwdkin_turns r theta q S), (jacobian_turns r theta q S). auto.
Qed.
(** From sources inside the limits, fwdkin accepts the results. *)
Theorem C46_limits : forall argsort, argsort_spec argsort -> forall r lo up thetas last res q,
  wf_robot r -> rlower r = Some lo -> rupper r = Some up ->
  (forall theta, In theta thetas -> length theta = length (rtype r) /\ within_limits r theta) ->
  equivalent_configurations argsort r thetas last = Ok res -> In q res ->
  exists theta T, In theta thetas /\ fwdkin r q false = Ok T /\ fwdkin r theta false = Ok T /\ forall x, act T x = robot_point r q x.
Proof.
  intros argsort SP r lo up thetas last res q W El Eu H E I. unfold equivalent_configurations in E.
  destruct (flat_map_out (equiv1 r) thetas) as [sols|] eqn:F; [|discriminate]. cbn [bind] in E.
  rewrite (sort_in argsort SP last sols res E q), (flat_map_out_in _ _ _ F q) in I. destruct I as (theta & ys & It & Ey & Iq).
  destruct (H theta It) as [L WI]. destruct (equiv1_spec r lo up theta W El Eu L WI) as (s & Es & _ & G). rewrite Es in Ey. inversion Ey; subst s.
  apply G in Iq as (_ & T & WQ). pose proof (whole_same _ _ _ T) as S. pose proof (same_turns_len _ _ _ S) as LQ.
  exists theta, (apply_aux r (bare_pose r q)). split; auto.
  rewrite (proj1 (fwdkin_limits r q W ltac:(lia)) WQ), (proj1 (fwdkin_limits r theta W L) WI), (fwdkin_turns r theta q S).
  rewrite fwdkin_ignore by (auto; lia). repeat split. intros x. apply act_fwdkin; auto.
Qed.
(** A source outside the limits can have results outside the limits. *)
Theorem C46_outside_refuted : exists r theta sols q, wf_robot r /\ length theta = length (rtype r) /\
  (forall argsort, equivalent_configurations argsort r [theta] None = Ok sols) /\ In q sols /\ fwdkin r q false = Err AssertionError.
Proof.
  pose proof PI_pos as PP.
  set (th := [6 * PI; 0]). destruct (equiv1 rp th) as [sols|] eqn:E; [|discriminate].
  exists rp, th, sols, [4 * PI; 0]. split; [apply rp_wf|]. split; [reflexivity|]. split; [|split].
  - intros argsort. unfold equivalent_configurations. cbn [flat_map_out]. rewrite E. cbn [bind]. rewrite app_nil_r. reflexivity.
  - pose (U := map (fun p => floor_div (snd p - fst p) (2 * PI)) (combine th [3 * PI; 10])).
    pose (L := map (fun p => floor_div (fst p - snd p) (2 * PI)) (combine th [-3 * PI; -10])).
    assert (Es : Ok (fold_left (equiv_step th (rtype rp) U L) (seq 0 2) []) = Ok sols) by (rewrite <- E; reflexivity).
    injection Es as Es.
    destruct (fold_reached th (rtype rp) U L 2 ltac:(simpl; lia)) as [_ H].
    assert (J : In [4 * PI; 0] (sols ++ [th])).
    { rewrite <- Es. apply H. split; auto. intros i Li. rewrite (proj2 (Nat.ltb_lt i 2) Li).
      destruct i as [|[|i]]; [| |simpl in Li; lia].
      - exists (-1)%Z. split; [|simpl; lra]. unfold U, L. simpl nth. simpl nth_error. unfold turns_of. right. apply in_app_iff. right. apply in_downs.
        split; [|lia]. simpl combine. simpl map. simpl nth. assert (1 <= floor_div (6 * PI - -3 * PI) (2 * PI))%Z by (apply floor_div_le; lra). lia.
      - exists 0%Z. split; [|simpl; lra]. simpl. auto. }
    apply in_app_iff in J as [J|[J|[]]]; auto. inversion J. lra.
  - apply fwdkin_limits; [apply rp_wf|reflexivity|]. intros K. apply rp_within in K. lra.
Qed.
Example C46_ex : exists sols T, (forall argsort, equivalent_configurations argsort rp [[1; 2]] None = Ok sols) /\
  In [1 + 2 * PI; 2] sols /\ fwdkin rp [1 + 2 * PI; 2] false = Ok T /\ fwdkin rp [1; 2] false = Ok T.
Proof.
  pose proof PI_lower as PP. assert (WI : within_limits rp [1; 2]) by (apply rp_within; lra).
  destruct (equiv1_spec rp _ _ [1; 2] rp_wf eq_refl eq_refl eq_refl WI) as (sols & E & _ & G).
  assert (WQ : within_limits rp [1 + 2 * PI; 2]) by (apply rp_within; lra).
  assert (S : whole_turns (rtype rp) [1; 2] [1 + 2 * PI; 2]) by (apply rp_turns; split; auto; exists 1%Z; lra).
  exists sols, (apply_aux rp (bare_pose rp [1; 2])). split; [|split; [|split]].
  - intros argsort. unfold equivalent_configurations. cbn [flat_map_out]. rewrite E. cbn [bind]. rewrite app_nil_r. reflexivity.
  - apply G. split; [apply neq_hd; lra|]. auto.
  - rewrite (proj1 (fwdkin_limits rp [1 + 2 * PI; 2] rp_wf eq_refl) WQ), <- (fwdkin_turns rp _ _ (whole_same _ _ _ S)). apply fwdkin_ignore; [apply rp_wf|auto].
  - rewrite (proj1 (fwdkin_limits rp [1; 2] rp_wf eq_refl) WI). apply fwdkin_ignore; [apply rp_wf|auto].
Qed.

Print Assumptions C44_one.
Print Assumptions C44_list.
Print Assumptions C44_distinct.
Print Assumptions C44_once_refuted.
Print Assumptions C44_last_raises.
Print Assumptions C44_last_refuted.
Print Assumptions C44_no_limits.
Print Assumptions C45_returned_inputs.
Print Assumptions C45_refuted.
Print Assumptions C46_pose.
Print Assumptions C46_limits.
Print Assumptions C46_outside_refuted.
