(** Properties C36 to C40 and C63: the closed-form inverse kinematics of six-axis robots with a
    spherical wrist. *)
From Coq Require Import Reals ZArith List Bool Lia Lra Psatz Sorting.Permutation Sorting.Sorted.
From Verif Require Import LinAlg RealAux Py FactsReal FactsLinAlg ModelRot SpecRot FactsRot
  ModelTransform ModelRobot ModelKin SpecKin FactsKin FactsJac ModelSub SpecSub FactsSub ModelInvkin SpecInvkin
  FactsInvkin FactsIkGeo FactsRobot6 FactsIkErr FactsIkMut FactsUr FactsIkOk PropKin PropInvkin.
Import ListNotations.
Open Scope R_scope.

Lemma list6 {A} (l : list A) : length l = 6%nat -> exists a b c d e f, l = [a; b; c; d; e; f].
Proof. do 7 (destruct l as [|? l]; try discriminate). intros _. repeat eexists. Qed.
Lemma allowed_within r q1 q2 q3 q4 q5 q6 : wf_robot r -> length (rtype r) = 6%nat ->
  allowed r 0 q1 /\ allowed r 1 q2 /\ allowed r 2 q3 /\ allowed r 3 q4 /\ allowed r 4 q5 /\ allowed r 5 q6 ->
  within_limits r [q1; q2; q3; q4; q5; q6].
Proof.
  intros W T (A0 & A1 & A2 & A3 & A4 & A5). unfold within_limits.
  pose proof (wf_lower r W) as LL. pose proof (wf_upper r W) as LU. unfold allowed, limits_of in *.
  destruct (rlower r) as [l|]; auto. destruct (rupper r) as [u|]; auto.
  specialize (LL l eq_refl). specialize (LU u eq_refl). rewrite T in *.
  destruct (list6 l LL) as (l0 & l1 & l2 & l3 & l4 & l5 & ->). destruct (list6 u LU) as (u0 & u1 & u2 & u3 & u4 & u5 & ->).
  assert (H0 := A0 l0 u0 ltac:(repeat eexists)). assert (H1 := A1 l1 u1 ltac:(repeat eexists)). assert (H2 := A2 l2 u2 ltac:(repeat eexists)).
  assert (H3 := A3 l3 u3 ltac:(repeat eexists)). assert (H4 := A4 l4 u4 ltac:(repeat eexists)). assert (H5 := A5 l5 u5 ltac:(repeat eexists)).
  split; repeat apply Forall2_cons; try apply Forall2_nil; lra.
Qed.
Lemma fwdkin_accepts r q : wf_robot r -> length q = length (rtype r) -> within_limits r q ->
  exists T, fwdkin r q false = Ok T /\ forall x, act T x = robot_point r q x.
Proof.
  intros W L I. exists (apply_aux r (bare_pose r q)). split; [|intros x; apply act_fwdkin; auto].
  rewrite (proj1 (fwdkin_limits r q W L) I). apply fwdkin_ignore; auto. lia.
Qed.

(** * C36: only solutions *)
Theorem C36_sound : forall argsort, argsort_spec argsort ->
  forall r h0 h1 h2 h3 h4 h5 p0 p1 p2 p3 p4 p5 p6, opw r h0 h1 h2 h3 h4 h5 p0 p1 p2 p3 p4 p5 p6 -> wf_aux r ->
  forall pose last res q, rigid pose ->
  snd (robot6_sphericalwrist_invkin argsort r pose last) = Ok res -> In q res ->
  exists T, fwdkin r q false = Ok T /\
  forall x, norm (vsub (act T x) (act pose x)) <=
            (Rmax 1 (norm (vadd p3 p4)) + 7 * norm (vadd (vadd p6 p5) (point6 r x))) * sqrt_eps.
Proof.
  intros argsort SP r h0 h1 h2 h3 h4 h5 p0 p1 p2 p3 p4 p5 p6 O W pose last res q RG E I.
  pose proof (opw_wf _ _ _ _ _ _ _ _ _ _ _ _ _ _ O) as WF. pose proof (opw_types _ _ _ _ _ _ _ _ _ _ _ _ _ _ O) as TY.
  destruct (robot6_sound argsort SP r _ _ _ _ _ _ _ _ _ _ _ _ _ O W pose RG last res q E I) as (q1 & q2 & q3 & q4 & q5 & q6 & -> & B & _ & L).
  destruct (fwdkin_accepts r [q1; q2; q3; q4; q5; q6] WF) as (T & ET & AT).
  - rewrite TY. reflexivity.
  - apply allowed_within; auto. rewrite TY. reflexivity.
  - exists T. split; auto. intros x. rewrite AT. apply B.
Qed.
(** Exactly the pose, unless an angle comes out as zero or the arm's two links nearly line up in the zero position. *)
Theorem C36_exact : forall argsort, argsort_spec argsort ->
  forall r h0 h1 h2 h3 h4 h5 p0 p1 p2 p3 p4 p5 p6, opw r h0 h1 h2 h3 h4 h5 p0 p1 p2 p3 p4 p5 p6 -> wf_aux r ->
  forall pose last res q1 q2 q3 q4 q5 q6, rigid pose ->
  snd (robot6_sphericalwrist_invkin argsort r pose last) = Ok res -> In [q1; q2; q3; q4; q5; q6] res ->
  sqrt_eps <= norm (vsub (dir (perp ey (vadd p3 p4))) (dir (perp ey p2))) ->
  ~ ang_eq q2 0 -> ~ ang_eq q4 0 -> ~ ang_eq q5 0 -> ~ ang_eq q6 0 ->
  exists T, fwdkin r [q1; q2; q3; q4; q5; q6] false = Ok T /\ same_motion T pose.
Proof.
  intros argsort SP r h0 h1 h2 h3 h4 h5 p0 p1 p2 p3 p4 p5 p6 O W pose last res q1 q2 q3 q4 q5 q6 RG E I D N2 N4 N5 N6.
  pose proof (opw_wf _ _ _ _ _ _ _ _ _ _ _ _ _ _ O) as WF. pose proof (opw_types _ _ _ _ _ _ _ _ _ _ _ _ _ _ O) as TY.
  destruct (robot6_sound argsort SP r _ _ _ _ _ _ _ _ _ _ _ _ _ O W pose RG last res _ E I) as (a1 & a2 & a3 & a4 & a5 & a6 & EQ & _ & X & L).
  inversion EQ; subst a1 a2 a3 a4 a5 a6.
  destruct (fwdkin_accepts r [q1; q2; q3; q4; q5; q6] WF) as (T & ET & AT).
  - rewrite TY. reflexivity.
  - apply allowed_within; auto. rewrite TY. reflexivity.
  - exists T. split; auto. apply C16_faithful. intros x. rewrite AT. apply X; auto.
Qed.

(** * C37: inside the limits *)
Theorem C37_limits : forall argsort, argsort_spec argsort ->
  forall r h0 h1 h2 h3 h4 h5 p0 p1 p2 p3 p4 p5 p6, opw r h0 h1 h2 h3 h4 h5 p0 p1 p2 p3 p4 p5 p6 -> wf_aux r ->
  forall pose last res q, rigid pose ->
  snd (robot6_sphericalwrist_invkin argsort r pose last) = Ok res -> In q res ->
  length q = 6%nat /\ (forall j theta, nth_error q j = Some theta -> allowed r j theta) /\
  within_limits r q /\ fwdkin r q false = fwdkin r q true /\ exists T, fwdkin r q false = Ok T.
Proof.
  intros argsort SP r h0 h1 h2 h3 h4 h5 p0 p1 p2 p3 p4 p5 p6 O W pose last res q RG E I.
  pose proof (opw_wf _ _ _ _ _ _ _ _ _ _ _ _ _ _ O) as WF. pose proof (opw_types _ _ _ _ _ _ _ _ _ _ _ _ _ _ O) as TY.
  destruct (robot6_sound argsort SP r _ _ _ _ _ _ _ _ _ _ _ _ _ O W pose RG last res q E I) as (q1 & q2 & q3 & q4 & q5 & q6 & -> & _ & _ & L).
  assert (WI : within_limits r [q1; q2; q3; q4; q5; q6]) by (apply allowed_within; auto; rewrite TY; reflexivity).
  assert (LE : length [q1; q2; q3; q4; q5; q6] = length (rtype r)) by (rewrite TY; reflexivity).
  split; auto. split; [|split; auto; split].
  - destruct L as (L0 & L1 & L2 & L3 & L4 & L5). intros j theta J.
    do 6 (destruct j as [|j]; [simpl in J; inversion J; subst; assumption|]). destruct j; discriminate.
  - apply fwdkin_limits; auto.
  - destruct (fwdkin_accepts r _ WF LE WI) as (T & ET & _). eauto.
Qed.

(** * C38: nearest first *)
Theorem C38_robot6 : forall argsort, argsort_spec argsort ->
  forall r h0 h1 h2 h3 h4 h5 p0 p1 p2 p3 p4 p5 p6, opw r h0 h1 h2 h3 h4 h5 p0 p1 p2 p3 p4 p5 p6 ->
  forall pose lj res, snd (robot6_sphericalwrist_invkin argsort r pose (Some lj)) = Ok res ->
  nearest_first (fun q => euclid q lj) res /\
  exists q rest, res = q :: rest /\ forall q', In q' res -> euclid q lj <= euclid q' lj.
Proof.
  intros argsort SP r h0 h1 h2 h3 h4 h5 p0 p1 p2 p3 p4 p5 p6 O pose lj res.
  rewrite (robot6_unfold argsort r _ _ _ _ _ _ _ _ _ _ _ _ _ O pose (Some lj)). cbn [snd].
  unfold robot6_solve. rewrite (opw_H _ _ _ _ _ _ _ _ _ _ _ _ _ _ O). unfold index. cbn [nth_error bind]. cbv zeta.
  destruct (call_flt argsort _ 0 _) as [N1|]; [|discriminate]. cbn [bind].
  destruct (flat_map_out _ N1) as [sols|]; [|discriminate]. cbn [bind]. intros E.
  apply (sort_last argsort SP) in E as (NE & P & S). split; auto.
  destruct res as [|q rest]; [apply Permutation_nil in P; contradiction|]. exists q, rest. split; auto.
  inversion S as [|? ? _ F]; subst. intros q' [->|I]; [lra|]. rewrite Forall_forall in F. auto.
Qed.

(** * C39: nothing for unreachable poses *)
(** The wrist centre is farther from the base than the arm is long. *)
Theorem C39_far : forall argsort, argsort_spec argsort ->
  forall r h0 h1 h2 h3 h4 h5 p0 p1 p2 p3 p4 p5 p6, opw r h0 h1 h2 h3 h4 h5 p0 p1 p2 p3 p4 p5 p6 -> wf_aux r ->
  forall pose last A v, (forall l, last = Some l -> length l = 6%nat) -> wrist_of r pose (vadd p6 p5) A v ->
  norm (vadd p0 p1) + norm p2 + norm (vadd p3 p4) < norm v ->
  ~ no_limits r \/ base_solvable h0 v (dot ey (vadd (vadd p1 p2) (vadd p3 p4))) ->
  (forall q, length q = 6%nat -> ~ reaches r q pose) /\
  snd (robot6_sphericalwrist_invkin argsort r pose last) = match last with None => Ok [] | Some _ => Err ValueError end.
Proof.
  intros argsort SP r h0 h1 h2 h3 h4 h5 p0 p1 p2 p3 p4 p5 p6 O W pose last A v LL WO F NN.
  destruct (wrist_unique r pose _ A v W WO) as [EV _]. rewrite EV in F, NN. split.
  - intros q LQ RC. destruct (list6 q LQ) as (a1 & a2 & a3 & a4 & a5 & a6 & ->).
    destruct (opw_units r _ _ _ _ _ _ _ _ _ _ _ _ _ O) as (U0 & U1 & U2 & U3 & U4 & U5).
    destruct (reach_split r _ _ _ _ _ _ _ _ _ _ _ _ _ O W pose a1 a2 a3 a4 a5 a6 RC) as [C _]. rewrite C in F.
    rewrite <- (on_axis_rot h0 a1 p0) in F at 2 by apply (opw_p0 _ _ _ _ _ _ _ _ _ _ _ _ _ _ O). rewrite <- mvec_vadd, <- vadd_assoc, SO3_norm in F by auto using rot_SO3.
    pose proof (norm_triangle (vadd p0 p1) (mvec (rot h1 a2) (vadd p2 (mvec (rot h2 a3) (vadd p3 p4))))) as T1.
    rewrite (SO3_norm (rot h1 a2)) in T1 by auto using rot_SO3. pose proof (norm_triangle p2 (mvec (rot h2 a3) (vadd p3 p4))) as T2.
    rewrite (SO3_norm (rot h2 a3)) in T2 by auto using rot_SO3. lra.
  - apply (robot6_far argsort SP r _ _ _ _ _ _ _ _ _ _ _ _ _ O pose last LL F NN).
Qed.
(** Whatever is returned for a pose that no joint vector comes close to is empty. *)
Theorem C39_empty : forall argsort, argsort_spec argsort ->
  forall r h0 h1 h2 h3 h4 h5 p0 p1 p2 p3 p4 p5 p6, opw r h0 h1 h2 h3 h4 h5 p0 p1 p2 p3 p4 p5 p6 -> wf_aux r ->
  forall pose last res, rigid pose ->
  (forall q, length q = 6%nat -> within_limits r q -> exists x,
     (Rmax 1 (norm (vadd p3 p4)) + 7 * norm (vadd (vadd p6 p5) (point6 r x))) * sqrt_eps < norm (vsub (robot_point r q x) (act pose x))) ->
  snd (robot6_sphericalwrist_invkin argsort r pose last) = Ok res -> res = [] /\ last = None.
Proof.
  intros argsort SP r h0 h1 h2 h3 h4 h5 p0 p1 p2 p3 p4 p5 p6 O W pose last res RG F E.
  assert (R0 : res = []).
  { destruct res as [|q res]; auto. exfalso.
    destruct (C37_limits argsort SP r _ _ _ _ _ _ _ _ _ _ _ _ _ O W pose last _ q RG E (or_introl eq_refl)) as (L & _ & WI & _).
    destruct (robot6_sound argsort SP r _ _ _ _ _ _ _ _ _ _ _ _ _ O W pose RG last _ q E (or_introl eq_refl)) as (q1 & q2 & q3 & q4 & q5 & q6 & -> & B & _).
    destruct (F _ L WI) as [x X]. specialize (B x). lra. }
  split; auto. destruct last as [lj|]; auto. exfalso.
  destruct (C38_robot6 argsort SP r _ _ _ _ _ _ _ _ _ _ _ _ _ O pose lj res E) as (_ & q & rest & X & _). congruence.
Qed.
(** With last_joints the answer is never the empty list. *)
Theorem C39_last_never_empty : forall argsort, argsort_spec argsort ->
  forall r h0 h1 h2 h3 h4 h5 p0 p1 p2 p3 p4 p5 p6, opw r h0 h1 h2 h3 h4 h5 p0 p1 p2 p3 p4 p5 p6 ->
  forall pose lj, snd (robot6_sphericalwrist_invkin argsort r pose (Some lj)) <> Ok [].
Proof.
  intros argsort SP r h0 h1 h2 h3 h4 h5 p0 p1 p2 p3 p4 p5 p6 O pose lj E.
  destruct (C38_robot6 argsort SP r _ _ _ _ _ _ _ _ _ _ _ _ _ O pose lj [] E) as (_ & q & rest & X & _). congruence.
Qed.
(** The wrist centre is too close to the first axis, or on the far side: with limits nothing is
    found, without limits the call fails an assertion. *)
Theorem C39_close : forall argsort, argsort_spec argsort ->
  forall r h0 h1 h2 h3 h4 h5 p0 p1 p2 p3 p4 p5 p6, opw r h0 h1 h2 h3 h4 h5 p0 p1 p2 p3 p4 p5 p6 -> wf_aux r ->
  forall pose last A v, (forall l, last = Some l -> length l = 6%nat) -> wrist_of r pose (vadd p6 p5) A v ->
  let side t := dot ey (rotate h0 (- t) v) in let d := dot ey (vadd (vadd p1 p2) (vadd p3 p4)) in
  ((forall t, side t <> d) -> forall q, length q = 6%nat -> ~ reaches r q pose) /\
  ((forall t, side t < d) -> snd (robot6_sphericalwrist_invkin argsort r pose last) = match last with None => Ok [] | Some _ => Err ValueError end) /\
  ((forall t, d < side t) -> ~ no_limits r ->
     snd (robot6_sphericalwrist_invkin argsort r pose last) = match last with None => Ok [] | Some _ => Err ValueError end) /\
  ((forall t, d < side t) -> no_limits r -> last = None ->
     snd (robot6_sphericalwrist_invkin argsort r pose last) = Err AssertionError).
Proof.
  intros argsort SP r h0 h1 h2 h3 h4 h5 p0 p1 p2 p3 p4 p5 p6 O W pose last A v LL WO side d.
  destruct (wrist_unique r pose _ A v W WO) as [EV _].
  destruct (opw_units r _ _ _ _ _ _ _ _ _ _ _ _ _ O) as (U0 & U1 & U2 & U3 & U4 & U5).
  split; [|split; [|split]].
  - intros ND q LQ RC. destruct (list6 q LQ) as (a1 & a2 & a3 & a4 & a5 & a6 & ->).
    destruct (reach_split r _ _ _ _ _ _ _ _ _ _ _ _ _ O W pose a1 a2 a3 a4 a5 a6 RC) as [C _].
    apply (ND a1). unfold side, d. rewrite EV, C. rewrite <- (rot_rotate h0) by auto.
    rewrite mvec_vadd, (rot_rot h0 (- a1) a1), Rplus_opp_l, rot_0, mvec_I by auto. rewrite on_axis_rot by apply (opw_p0 _ _ _ _ _ _ _ _ _ _ _ _ _ _ O).
    rewrite !dot_vadd_r.
    assert (D1 : forall h t u, h = ey \/ h = vneg ey -> dot ey (mvec (rot h t) u) = dot ey u).
    { intros h t u [-> | ->]; [|rewrite rot_neg]; rewrite (dot_comm ey), rot_dot_axis, dot_comm; auto; unfold unit3, dot, ey; simpl; ring. }
    rewrite (D1 h1) by apply (opw_h1 _ _ _ _ _ _ _ _ _ _ _ _ _ _ O). rewrite !dot_vadd_r.
    rewrite (D1 h2) by apply (opw_h2 _ _ _ _ _ _ _ _ _ _ _ _ _ _ O). rewrite !dot_vadd_r.
    assert (dot ey p0 = 0). { pose proof (opw_p0y _ _ _ _ _ _ _ _ _ _ _ _ _ _ O) as Y. unfold dot, ey. simpl. rewrite Y. ring. } lra.
  - intros B. apply (robot6_beyond argsort SP r _ _ _ _ _ _ _ _ _ _ _ _ _ O pose last LL). rewrite <- EV. exact B.
  - intros B. apply (robot6_nan_cases argsort SP r _ _ _ _ _ _ _ _ _ _ _ _ _ O pose last LL). left. rewrite <- EV. exact B.
  - intros B. apply (robot6_nan_cases argsort SP r _ _ _ _ _ _ _ _ _ _ _ _ _ O pose last LL). left. rewrite <- EV. exact B.
Qed.

(** Normalisation finds an allowed equivalent angle, and the angle itself when that is near
    last_joints. *)
Definition tracked (last : option (list R)) (j : nat) (x a : R) : Prop :=
  ang_eq x a /\ match last with None => True | Some l => Rabs (a - nth j l 0) < PI / 2 -> x = a end.
Lemma tracked_ang last j x a : tracked last j x a -> ang_eq x a. Proof. intros H; apply H. Qed.
Lemma track r last : wf_robot r -> length (rtype r) = 6%nat -> (forall l, last = Some l -> length l = 6%nat) ->
  forall j t a, (j < 6)%nat -> allowed r j a -> ang_eq t a -> Rabs (t - a) < 4 * PI ->
  exists x, normalize (normalize_joints r last false) j t = Ok (Some x) /\ tracked last j x a.
Proof.
  intros W T LL j t a J Al A B. pose proof PI_pos as PP.
  destruct (C34_found r last j t a W) as [x E]; auto. { rewrite T; auto. } { rewrite T; auto. }
  exists x. split; auto. destruct (C34_sound r last false j t x E) as [X _].
  assert (XA : ang_eq x a) by (eapply ang_eq_trans; eauto). split; auto. destruct last as [l|]; auto. intros N.
  assert (NL : nth_error l j = Some (nth j l 0)) by (apply nth_error_nth'; rewrite (LL l eq_refl); auto).
  pose proof (C34_closest r l j (nth j l 0) t x W) as C. rewrite T in C. specialize (C (LL l eq_refl) NL E a (ang_eq_sym _ _ A) Al).
  assert (Rabs (x - a) < 2 * PI).
  { replace (x - a) with ((x - nth j l 0) - (a - nth j l 0)) by ring. pose proof (Rabs_triang (x - nth j l 0) (- (a - nth j l 0))) as TR.
    rewrite Rabs_Ropp in TR. unfold Rminus at 1. lra. }
  destruct XA as [n XA]. apply Rabs_def2 in H. assert (n = 0%Z) as ->; [|lra].
  assert (-1 < IZR n < 1) by nra. assert (-1 < n < 1)%Z by (split; apply lt_IZR; lra). lia.
Qed.

(** * C40: every solution is found *)
(** A joint vector that reaches the pose, lies inside the limits and is away from the
    singularities and from the solver's thresholds, is in the result up to whole turns. *)
Theorem C40_complete : forall argsort, argsort_spec argsort ->
  forall r h0 h1 h2 h3 h4 h5 p0 p1 p2 p3 p4 p5 p6, opw r h0 h1 h2 h3 h4 h5 p0 p1 p2 p3 p4 p5 p6 -> wf_aux r ->
  dot h0 ey = 0 -> ~ on_axis ey p2 -> ~ on_axis ey (vadd p3 p4) ->
  sqrt_eps <= norm (vsub (dir (perp ey (vadd p3 p4))) (dir (perp ey p2))) ->
  forall pose a1 a2 a3 a4 a5 a6 res, reaches r [a1; a2; a3; a4; a5; a6] pose ->
  let e := vadd p2 (rotate h2 a3 (vadd p3 p4)) in
  ~ on_axis h0 (rotate h0 a1 (vadd p1 (rotate h1 a2 e))) -> ~ on_axis h1 e -> eps <= sin a5 * sin a5 ->
  clear_move h1 a2 e -> clear_move h3 a4 (rotate h4 a5 h5) -> clear_move h5 a6 h4 ->
  (forall j t, nth_error [a1; a2; a3; a4; a5; a6] j = Some t -> allowed r j t /\ Rabs t < 3 / 2 * PI) ->
  snd (robot6_sphericalwrist_invkin argsort r pose None) = Ok res ->
  exists q, In q res /\ turns_eq q [a1; a2; a3; a4; a5; a6].
Proof.
  intros argsort SP r h0 h1 h2 h3 h4 h5 p0 p1 p2 p3 p4 p5 p6 O W Y0 O2 O3 Q pose a1 a2 a3 a4 a5 a6 res RC e Oc Oe S5 C2 C4 C6 AL.
  destruct (AL 0%nat a1 eq_refl) as [L1 B1]. destruct (AL 1%nat a2 eq_refl) as [L2 B2]. destruct (AL 2%nat a3 eq_refl) as [L3 B3].
  destruct (AL 3%nat a4 eq_refl) as [L4 B4]. destruct (AL 4%nat a5 eq_refl) as [L5 B5]. destruct (AL 5%nat a6 eq_refl) as [L6 B6].
  rewrite (robot6_unfold argsort r _ _ _ _ _ _ _ _ _ _ _ _ _ O pose None). cbn [snd]. intros E.
  destruct (path6_complete r _ _ _ _ _ _ _ _ _ _ _ _ _ O W pose _ (tracked None) (tracked_ang None) (track r None (opw_wf _ _ _ _ _ _ _ _ _ _ _ _ _ _ O) ltac:(rewrite (opw_types _ _ _ _ _ _ _ _ _ _ _ _ _ _ O); reflexivity) ltac:(discriminate))
    a1 a2 a3 a4 a5 a6 RC Y0 O2 O3 Q Oc Oe C2 S5 C4 C6 L1 L2 L3 L4 L5 L6) as (q1 & q2 & q3 & q4 & q5 & q6 & PT & K1 & K2 & K3 & K4 & K5 & K6).
  { repeat apply Forall_cons; auto. }
  exists [q1; q2; q3; q4; q5; q6]. split.
  - apply (robot6_path_in argsort SP r _ _ _ _ _ _ _ _ _ _ _ _ _ (unapply_aux r pose) None (opw_H _ _ _ _ _ _ _ _ _ _ _ _ _ _ O) res _ _ _ _ _ _ I I I I E PT).
  - unfold turns_eq, tracked in *. repeat apply Forall2_cons; try apply Forall2_nil; tauto.
Qed.
(** With last_joints: a solution within a quarter turn of last_joints in every joint is found,
    exactly. *)
Theorem C65_tracking : forall argsort, argsort_spec argsort ->
  forall r h0 h1 h2 h3 h4 h5 p0 p1 p2 p3 p4 p5 p6, opw r h0 h1 h2 h3 h4 h5 p0 p1 p2 p3 p4 p5 p6 -> wf_aux r ->
  dot h0 ey = 0 -> ~ on_axis ey p2 -> ~ on_axis ey (vadd p3 p4) ->
  sqrt_eps <= norm (vsub (dir (perp ey (vadd p3 p4))) (dir (perp ey p2))) ->
  forall pose l a1 a2 a3 a4 a5 a6, length l = 6%nat -> reaches r [a1; a2; a3; a4; a5; a6] pose ->
  let e := vadd p2 (rotate h2 a3 (vadd p3 p4)) in
  ~ on_axis h0 (rotate h0 a1 (vadd p1 (rotate h1 a2 e))) -> ~ on_axis h1 e -> eps <= sin a5 * sin a5 ->
  clear_move h1 a2 e -> clear_move h3 a4 (rotate h4 a5 h5) -> clear_move h5 a6 h4 ->
  (forall j t, nth_error [a1; a2; a3; a4; a5; a6] j = Some t -> allowed r j t /\ Rabs t < 3 / 2 * PI) ->
  (forall j t lj, nth_error [a1; a2; a3; a4; a5; a6] j = Some t -> nth_error l j = Some lj -> Rabs (t - lj) < PI / 2) ->
  snd (robot6_sphericalwrist_invkin argsort r pose (Some l)) = Err AssertionError \/
  exists res, snd (robot6_sphericalwrist_invkin argsort r pose (Some l)) = Ok res /\ In [a1; a2; a3; a4; a5; a6] res.
Proof.
  intros argsort SP r h0 h1 h2 h3 h4 h5 p0 p1 p2 p3 p4 p5 p6 O W Y0 O2 O3 Q pose l a1 a2 a3 a4 a5 a6 LL RC e Oc Oe S5 C2 C4 C6 AL NR.
  destruct (AL 0%nat a1 eq_refl) as [L1 B1]. destruct (AL 1%nat a2 eq_refl) as [L2 B2]. destruct (AL 2%nat a3 eq_refl) as [L3 B3].
  destruct (AL 3%nat a4 eq_refl) as [L4 B4]. destruct (AL 4%nat a5 eq_refl) as [L5 B5]. destruct (AL 5%nat a6 eq_refl) as [L6 B6].
  rewrite (robot6_unfold argsort r _ _ _ _ _ _ _ _ _ _ _ _ _ O pose (Some l)). cbn [snd].
  destruct (path6_complete r _ _ _ _ _ _ _ _ _ _ _ _ _ O W pose _ (tracked (Some l)) (tracked_ang (Some l)) (track r (Some l) (opw_wf _ _ _ _ _ _ _ _ _ _ _ _ _ _ O) ltac:(rewrite (opw_types _ _ _ _ _ _ _ _ _ _ _ _ _ _ O); reflexivity) ltac:(intros ? X; inversion X; subst; assumption))
    a1 a2 a3 a4 a5 a6 RC Y0 O2 O3 Q Oc Oe C2 S5 C4 C6 L1 L2 L3 L4 L5 L6) as (q1 & q2 & q3 & q4 & q5 & q6 & PT & K1 & K2 & K3 & K4 & K5 & K6).
  { repeat apply Forall_cons; auto. }
  destruct (list6 l LL) as (l1 & l2 & l3 & l4 & l5 & l6 & ->).
  pose proof (NR 0%nat a1 l1 eq_refl eq_refl) as N1. pose proof (NR 1%nat a2 l2 eq_refl eq_refl) as N2. pose proof (NR 2%nat a3 l3 eq_refl eq_refl) as N3.
  pose proof (NR 3%nat a4 l4 eq_refl eq_refl) as N4. pose proof (NR 4%nat a5 l5 eq_refl eq_refl) as N5. pose proof (NR 5%nat a6 l6 eq_refl eq_refl) as N6.
  unfold tracked in *. simpl in K1, K2, K3, K4, K5, K6.
  destruct K1 as [_ K1]. destruct K2 as [_ K2]. destruct K3 as [_ K3]. destruct K4 as [_ K4]. destruct K5 as [_ K5]. destruct K6 as [_ K6].
  rewrite (K1 N1), (K2 N2), (K3 N3), (K4 N4), (K5 N5), (K6 N6) in PT.
  assert (LS : forall k, Some [l1; l2; l3; l4; l5; l6] = Some k -> length k = 6%nat) by (intros k X; inversion X; reflexivity).
  destruct (robot6_path_sorts argsort SP r _ _ _ _ _ _ _ _ _ _ vzero vzero _ (unapply_aux r pose) (Some [l1; l2; l3; l4; l5; l6]) (opw_H _ _ _ _ _ _ _ _ _ _ _ _ _ _ O) _ _ _ _ _ _ LS N1 N3 N4 N5 PT) as [[res E]|(x & ES & E)].
  - right. exists res. split; auto.
    apply (robot6_path_in argsort SP r _ _ _ _ _ _ _ _ _ _ _ _ _ (unapply_aux r pose) (Some [l1; l2; l3; l4; l5; l6]) (opw_H _ _ _ _ _ _ _ _ _ _ _ _ _ _ O) res _ _ _ _ _ _ N1 N3 N4 N5 E PT).
  - left. rewrite E. f_equal. eapply robot6_sols_err; [exact SP|apply (opw_wf _ _ _ _ _ _ _ _ _ _ _ _ _ _ O)|rewrite (opw_types _ _ _ _ _ _ _ _ _ _ _ _ _ _ O); reflexivity|exact LS|exact ES].
Qed.
(** At a wrist singularity the call fails an assertion instead. *)
Theorem C40_singular : forall argsort, argsort_spec argsort ->
  forall r h0 h1 h2 h3 h4 h5 p0 p1 p2 p3 p4 p5 p6, opw r h0 h1 h2 h3 h4 h5 p0 p1 p2 p3 p4 p5 p6 -> wf_aux r ->
  dot h0 ey = 0 -> ~ on_axis ey p2 -> ~ on_axis ey (vadd p3 p4) ->
  sqrt_eps <= norm (vsub (dir (perp ey (vadd p3 p4))) (dir (perp ey p2))) ->
  forall pose a1 a2 a3 a4 a5 a6, rigid pose -> reaches r [a1; a2; a3; a4; a5; a6] pose ->
  let e := vadd p2 (rotate h2 a3 (vadd p3 p4)) in
  ~ on_axis h0 (rotate h0 a1 (vadd p1 (rotate h1 a2 e))) -> ~ on_axis h1 e -> clear_move h1 a2 e ->
  (forall j t, nth_error [a1; a2; a3] j = Some t -> allowed r j t /\ Rabs t < 3 / 2 * PI) ->
  sin a5 * sin a5 < eps ->
  snd (robot6_sphericalwrist_invkin argsort r pose None) = Err AssertionError.
Proof.
  intros argsort SP r h0 h1 h2 h3 h4 h5 p0 p1 p2 p3 p4 p5 p6 O W Y0 O2 O3 Q pose a1 a2 a3 a4 a5 a6 RG RC e Oc Oe C2 AL S5.
  destruct (AL 0%nat a1 eq_refl) as [L1 B1]. destruct (AL 1%nat a2 eq_refl) as [L2 B2]. destruct (AL 2%nat a3 eq_refl) as [L3 B3].
  exact (robot6_singular argsort SP r _ _ _ _ _ _ _ _ _ _ _ _ _ O W pose a1 a2 a3 a4 a5 a6 RC Y0 O2 O3 Q Oc Oe C2 L1 L2 L3 B1 B2 B3 S5).
Qed.
(** With the wrist centre on the first axis (and the arm in its plane) nothing is found: the
    list is empty with limits, and without them the call fails an assertion. *)
Theorem C40_shoulder : forall argsort, argsort_spec argsort ->
  forall r h0 h1 h2 h3 h4 h5 p0 p1 p2 p3 p4 p5 p6, opw r h0 h1 h2 h3 h4 h5 p0 p1 p2 p3 p4 p5 p6 -> wf_aux r ->
  forall pose A v, wrist_of r pose (vadd p6 p5) A v ->
  (forall t, dot ey (rotate h0 (- t) v) = dot ey (vadd (vadd p1 p2) (vadd p3 p4))) ->
  (~ no_limits r -> snd (robot6_sphericalwrist_invkin argsort r pose None) = Ok []) /\
  (no_limits r -> snd (robot6_sphericalwrist_invkin argsort r pose None) = Err AssertionError).
Proof.
  intros argsort SP r h0 h1 h2 h3 h4 h5 p0 p1 p2 p3 p4 p5 p6 O W pose A v WO B.
  destruct (wrist_unique r pose _ A v W WO) as [EV _]. rewrite EV in B.
  destruct (robot6_nan_cases argsort SP r _ _ _ _ _ _ _ _ _ _ _ _ _ O pose None) as [X Y]; auto. discriminate.
Qed.

(** * C63: when it raises *)
Theorem C63_robot6_errors : forall argsort, argsort_spec argsort ->
  forall r h0 h1 h2 h3 h4 h5 p0 p1 p2 p3 p4 p5 p6, opw r h0 h1 h2 h3 h4 h5 p0 p1 p2 p3 p4 p5 p6 ->
  forall pose last e, (forall l, last = Some l -> length l = 6%nat) ->
  snd (robot6_sphericalwrist_invkin argsort r pose last) = Err e -> e = AssertionError \/ (e = ValueError /\ last <> None).
Proof.
  intros argsort SP r h0 h1 h2 h3 h4 h5 p0 p1 p2 p3 p4 p5 p6 O pose last e LL E.
  rewrite (robot6_unfold argsort r _ _ _ _ _ _ _ _ _ _ _ _ _ O pose last) in E. cbn [snd] in E.
  apply (robot6_solve_err argsort SP r h0 h1 h2 h3 h4 h5 _ _ _ _ _ _ _ (unapply_aux r pose) last (opw_H _ _ _ _ _ _ _ _ _ _ _ _ _ _ O) (opw_wf _ _ _ _ _ _ _ _ _ _ _ _ _ _ O)) with (e := e) in E; auto.
  rewrite (opw_types _ _ _ _ _ _ _ _ _ _ _ _ _ _ O). reflexivity.
Qed.
(** Links of different length, a solvable equation for the first joint and no wrist position
    with the fourth and sixth axes aligned: no assertion fails. *)
Theorem C63_robot6_regular : forall argsort, argsort_spec argsort ->
  forall r h0 h1 h2 h3 h4 h5 p0 p1 p2 p3 p4 p5 p6, opw r h0 h1 h2 h3 h4 h5 p0 p1 p2 p3 p4 p5 p6 -> wf_aux r ->
  ~ on_axis ey p2 -> ~ on_axis ey (vadd p3 p4) -> norm (perp ey p2) <> norm (perp ey (vadd p3 p4)) ->
  forall pose last A v, rigid pose -> (forall l, last = Some l -> length l = 6%nat) -> wrist_of r pose (vadd p6 p5) A v ->
  ~ no_limits r \/ base_solvable h0 v (dot ey (vadd (vadd p1 p2) (vadd p3 p4))) ->
  (forall q1 q2 q3,
     norm (vsub (vadd p0 (rotate h0 q1 (vadd p1 (rotate h1 q2 (vadd p2 (rotate h2 q3 (vadd p3 p4))))))) v) <= Rmax 1 (norm (vadd p3 p4)) * sqrt_eps ->
     let c := dot (mvec A h5) (rotate h0 q1 (rotate h1 q2 (rotate h2 q3 h3))) in eps <= 1 - c * c) ->
  (exists res, snd (robot6_sphericalwrist_invkin argsort r pose last) = Ok res) \/
  (snd (robot6_sphericalwrist_invkin argsort r pose last) = Err ValueError /\ last <> None).
Proof.
  intros argsort SP r h0 h1 h2 h3 h4 h5 p0 p1 p2 p3 p4 p5 p6 O W O2 O3 NE pose last A v RG LL WO NN WS.
  destruct (wrist_unique r pose _ A v W WO) as [EV EA]. rewrite EV in NN.
  assert (WS' : forall q1 q2 q3, norm (vsub (vadd p0 (rotate h0 q1 (vadd p1 (rotate h1 q2 (vadd p2 (rotate h2 q3 (vadd p3 p4)))))))
     (vsub (tp (unapply_aux r pose)) (mvec (tR (unapply_aux r pose)) (vadd p6 p5)))) <= Rmax 1 (norm (vadd p3 p4)) * sqrt_eps ->
     let c := dot (mvec (tR (unapply_aux r pose)) h5) (rotate h0 q1 (rotate h1 q2 (rotate h2 q3 h3))) in eps <= 1 - c * c).
  { intros q1 q2 q3. rewrite <- EV, <- EA. apply WS. }
  destruct (snd (robot6_sphericalwrist_invkin argsort r pose last)) as [res|e] eqn:E; [left; eauto|right].
  destruct (robot6_no_raise argsort SP r _ _ _ _ _ _ _ _ _ _ _ _ _ O W pose RG last LL O2 O3 NE NN WS' e E) as [-> LN]. auto.
Qed.
(** Completeness with no assumption that the call succeeds. *)
Theorem C40_regular : forall argsort, argsort_spec argsort ->
  forall r h0 h1 h2 h3 h4 h5 p0 p1 p2 p3 p4 p5 p6, opw r h0 h1 h2 h3 h4 h5 p0 p1 p2 p3 p4 p5 p6 -> wf_aux r ->
  dot h0 ey = 0 -> ~ on_axis ey p2 -> ~ on_axis ey (vadd p3 p4) -> norm (perp ey p2) <> norm (perp ey (vadd p3 p4)) ->
  sqrt_eps <= norm (vsub (dir (perp ey (vadd p3 p4))) (dir (perp ey p2))) ->
  forall pose A v, rigid pose -> wrist_of r pose (vadd p6 p5) A v ->
  ~ no_limits r \/ base_solvable h0 v (dot ey (vadd (vadd p1 p2) (vadd p3 p4))) ->
  (forall q1 q2 q3,
     norm (vsub (vadd p0 (rotate h0 q1 (vadd p1 (rotate h1 q2 (vadd p2 (rotate h2 q3 (vadd p3 p4))))))) v) <= Rmax 1 (norm (vadd p3 p4)) * sqrt_eps ->
     let c := dot (mvec A h5) (rotate h0 q1 (rotate h1 q2 (rotate h2 q3 h3))) in eps <= 1 - c * c) ->
  exists res, snd (robot6_sphericalwrist_invkin argsort r pose None) = Ok res /\
  forall a1 a2 a3 a4 a5 a6, reaches r [a1; a2; a3; a4; a5; a6] pose ->
  let e := vadd p2 (rotate h2 a3 (vadd p3 p4)) in
  ~ on_axis h0 (rotate h0 a1 (vadd p1 (rotate h1 a2 e))) -> ~ on_axis h1 e -> eps <= sin a5 * sin a5 ->
  clear_move h1 a2 e -> clear_move h3 a4 (rotate h4 a5 h5) -> clear_move h5 a6 h4 ->
  (forall j t, nth_error [a1; a2; a3; a4; a5; a6] j = Some t -> allowed r j t /\ Rabs t < 3 / 2 * PI) ->
  exists q, In q res /\ turns_eq q [a1; a2; a3; a4; a5; a6].
Proof.
  intros argsort SP r h0 h1 h2 h3 h4 h5 p0 p1 p2 p3 p4 p5 p6 O W Y0 O2 O3 NE Q pose A v RG WO NN WS.
  destruct (C63_robot6_regular argsort SP r _ _ _ _ _ _ _ _ _ _ _ _ _ O W O2 O3 NE pose None A v RG ltac:(discriminate) WO NN WS) as [[res E]|[_ X]]; [|congruence].
  exists res. split; auto. intros a1 a2 a3 a4 a5 a6 RC e Oc Oe S5 C2 C4 C6 AL.
  eapply (C40_complete argsort SP r); eauto.
Qed.
(** ... and tracking, with no assumption that the call succeeds: a nearer answer comes first, so the
    head of the list is at least as close to last_joints as the given solution. *)
Theorem C65_regular : forall argsort, argsort_spec argsort ->
  forall r h0 h1 h2 h3 h4 h5 p0 p1 p2 p3 p4 p5 p6, opw r h0 h1 h2 h3 h4 h5 p0 p1 p2 p3 p4 p5 p6 -> wf_aux r ->
  dot h0 ey = 0 -> ~ on_axis ey p2 -> ~ on_axis ey (vadd p3 p4) -> norm (perp ey p2) <> norm (perp ey (vadd p3 p4)) ->
  sqrt_eps <= norm (vsub (dir (perp ey (vadd p3 p4))) (dir (perp ey p2))) ->
  forall pose A v, rigid pose -> wrist_of r pose (vadd p6 p5) A v ->
  ~ no_limits r \/ base_solvable h0 v (dot ey (vadd (vadd p1 p2) (vadd p3 p4))) ->
  (forall q1 q2 q3,
     norm (vsub (vadd p0 (rotate h0 q1 (vadd p1 (rotate h1 q2 (vadd p2 (rotate h2 q3 (vadd p3 p4))))))) v) <= Rmax 1 (norm (vadd p3 p4)) * sqrt_eps ->
     let c := dot (mvec A h5) (rotate h0 q1 (rotate h1 q2 (rotate h2 q3 h3))) in eps <= 1 - c * c) ->
  forall l a1 a2 a3 a4 a5 a6, length l = 6%nat -> reaches r [a1; a2; a3; a4; a5; a6] pose ->
  let e := vadd p2 (rotate h2 a3 (vadd p3 p4)) in
  ~ on_axis h0 (rotate h0 a1 (vadd p1 (rotate h1 a2 e))) -> ~ on_axis h1 e -> eps <= sin a5 * sin a5 ->
  clear_move h1 a2 e -> clear_move h3 a4 (rotate h4 a5 h5) -> clear_move h5 a6 h4 ->
  (forall j t, nth_error [a1; a2; a3; a4; a5; a6] j = Some t -> allowed r j t /\ Rabs t < 3 / 2 * PI) ->
  (forall j t lj, nth_error [a1; a2; a3; a4; a5; a6] j = Some t -> nth_error l j = Some lj -> Rabs (t - lj) < PI / 2) ->
  exists q rest, snd (robot6_sphericalwrist_invkin argsort r pose (Some l)) = Ok (q :: rest) /\
    In [a1; a2; a3; a4; a5; a6] (q :: rest) /\ euclid q l <= euclid [a1; a2; a3; a4; a5; a6] l.
Proof.
  intros argsort SP r h0 h1 h2 h3 h4 h5 p0 p1 p2 p3 p4 p5 p6 O W Y0 O2 O3 NE Q pose A v RG WO NN WS l a1 a2 a3 a4 a5 a6 LL RC e Oc Oe S5 C2 C4 C6 AL NR.
  pose proof (C63_robot6_regular argsort SP r _ _ _ _ _ _ _ _ _ _ _ _ _ O W O2 O3 NE pose (Some l) A v RG ltac:(intros ? X; inversion X; subst; auto) WO NN WS) as OK.
  destruct (C65_tracking argsort SP r _ _ _ _ _ _ _ _ _ _ _ _ _ O W Y0 O2 O3 Q pose l a1 a2 a3 a4 a5 a6 LL RC Oc Oe S5 C2 C4 C6 AL NR) as [X|(res & E & I)].
  { rewrite X in OK. destruct OK as [[res OK]|[OK _]]; discriminate. }
  destruct (C38_robot6 argsort SP r _ _ _ _ _ _ _ _ _ _ _ _ _ O pose l res E) as (_ & q & rest & -> & H). exists q, rest. auto.
Qed.

(** * Instances *)
Lemma opw_r6 p0 p1 p2 a b c p6 lo up : (forall l, lo = Some l -> length l = 6%nat) -> (forall u, up = Some u -> length u = 6%nat) ->
  vx p0 = 0 -> vy p0 = 0 ->
  opw (r6 p0 p1 p2 a (vscale b ex) (vscale c ex) p6 lo up) ez ey ey ex ey ex p0 p1 p2 a (vscale b ex) (vscale c ex) p6.
Proof.
  intros L U X Y. split; auto.
  - apply r6_wf; auto.
  - unfold on_axis, perp, vsub, vscale, dot, ez, vzero. destruct p0 as [x y z]. simpl in *. subst. f_equal; ring.
  - unfold on_axis, perp. la_ring.
  - unfold on_axis, perp. la_ring.
  - la_ring.
Qed.
Lemma r6_point p0 p1 p2 p3 p4 p5 p6 lo up a1 a2 a3 a4 a5 a6 x : robot_point (r6 p0 p1 p2 p3 p4 p5 p6 lo up) [a1; a2; a3; a4; a5; a6] x =
  vadd p0 (rotate ez a1 (vadd p1 (rotate ey a2 (vadd p2 (rotate ey a3 (vadd p3 (rotate ex a4 (vadd p4 (rotate ey a5 (vadd p5 (rotate ex a6 (vadd p6 x)))))))))))).
Proof. reflexivity. Qed.
Definition r_ik (lo up : option (list R)) : robot := r6 ez ex (V3 0 0 2) (V3 (1/2) 0 0) (vscale (1/2) ex) (vscale 1 ex) vzero lo up.
Lemma lo6 : forall l, Some lo3s = Some l -> length l = 6%nat. Proof. intros l E; inversion E; reflexivity. Qed.
Lemma up6 : forall l, Some up3s = Some l -> length l = 6%nat. Proof. intros l E; inversion E; reflexivity. Qed.
Lemma none6 : forall l : list R, None = Some l -> length l = 6%nat. Proof. discriminate. Qed.
Definition r_ikl := r_ik (Some lo3s) (Some up3s).
Definition r_ikf := r_ik None None.
Lemma r_ikl_opw : opw r_ikl ez ey ey ex ey ex ez ex (V3 0 0 2) (V3 (1/2) 0 0) (vscale (1/2) ex) (vscale 1 ex) vzero.
Proof. apply opw_r6; auto using lo6, up6. Qed.
Lemma r_ikf_opw : opw r_ikf ez ey ey ex ey ex ez ex (V3 0 0 2) (V3 (1/2) 0 0) (vscale (1/2) ex) (vscale 1 ex) vzero.
Proof. apply opw_r6; auto using none6. Qed.
Lemma r_ikl_aux : wf_aux r_ikl. Proof. apply r6_aux. Qed.
Lemma r_ikf_aux : wf_aux r_ikf. Proof. apply r6_aux. Qed.
Lemma r_ikl_limited : ~ no_limits r_ikl. Proof. intros [H|H]; discriminate. Qed.
Lemma r_ikl_allowed j t : -3 < t < 3 -> allowed r_ikl j t.
Proof.
  intros B l u L. apply r6_limits in L as [L U]. unfold lo3s, up3s in *.
  do 6 (destruct j as [|j]; [simpl in L, U; inversion L; inversion U; subst; auto|]). destruct j; discriminate.
Qed.
Lemma rotate_0 k v : rotate k 0 v = v. Proof. unfold rotate. rewrite sin_0, cos_0. la_ring. Qed.
Lemma rotate_x a b c : rotate ex (PI / 2) (V3 a b c) = V3 a (- c) b.
Proof. unfold rotate. rewrite sin_PI2, cos_PI2. la_ring. Qed.
Lemma rotate_y a b c : rotate ey (PI / 2) (V3 a b c) = V3 c b (- a).
Proof. unfold rotate. rewrite sin_PI2, cos_PI2. la_ring. Qed.
Lemma rotate_y' a b c : rotate ey (- (PI / 2)) (V3 a b c) = V3 (- c) b a.
Proof. unfold rotate. rewrite sin_neg, cos_neg, sin_PI2, cos_PI2. la_ring. Qed.
Lemma vadd_V3 a b c a' b' c' : vadd (V3 a b c) (V3 a' b' c') = V3 (a + a') (b + b') (c + c'). Proof. reflexivity. Qed.
Lemma vscale_V3 s a b c : vscale s (V3 a b c) = V3 (s * a) (s * b) (s * c). Proof. reflexivity. Qed.
Lemma mvec_V3 a b c d e f g h i x y z : mvec (M3 a b c d e f g h i) (V3 x y z) =
  V3 (a * x + b * y + c * z) (d * x + e * y + f * z) (g * x + h * y + i * z). Proof. reflexivity. Qed.
Ltac vsolve := unfold act; cbn [tR tp]; repeat first [rewrite vscale_V3 | rewrite vadd_V3 | rewrite rotate_0 | rewrite rotate_x | rewrite rotate_y | rewrite rotate_y' | rewrite mvec_V3
  | progress change ex with (V3 1 0 0) | progress change ez with (V3 0 0 1) | progress change vzero with (V3 0 0 0)].
(** A regular pose: the wrist bent by a quarter turn *)
Definition pose_reg : transform := Tf (M3 0 0 1 1 0 0 0 1 0) (V3 2 1 3) None None.
Definition q_reg : list R := [0; 0; 0; PI / 2; PI / 2; 0].
Lemma pose_reg_rigid : rigid pose_reg.
Proof. unfold rigid, is_SO3, pose_reg. cbn [tR]. split; la_ring. Qed.
Lemma q_reg_reaches lo up : reaches (r_ik lo up) q_reg pose_reg.
Proof.
  intros [x y z]. unfold r_ik, q_reg. rewrite r6_point. unfold pose_reg. vsolve. f_equal; field.
Qed.
Lemma pose_reg_wrist lo up : wrist_of (r_ik lo up) pose_reg (vadd vzero (vscale 1 ex)) (tR pose_reg) (V3 2 0 3).
Proof. intros [x y z]. change (act_opt (rbase (r_ik lo up))) with (fun x : vec3 => x). unfold point6, act_tool, pose_reg. cbn [r_ik r6 rbase rflange rRtool rptool act_opt]. vsolve. f_equal; ring. Qed.
(** The identity of zero joints: wrist singular *)
Definition pose_zero : transform := Tf I3 (V3 3 0 3) None None.
Lemma q_zero_reaches lo up : reaches (r_ik lo up) [0; 0; 0; 0; 0; 0] pose_zero.
Proof. intros [x y z]. unfold r_ik. rewrite r6_point. unfold pose_zero, I3. vsolve. f_equal; field. Qed.
(** The wrist above the base *)
Definition pose_top : transform := Tf (M3 0 0 1 0 1 0 (-1) 0 0) vzero None None.
Lemma q_top_reaches lo up : reaches (r_ik lo up) [0; - (PI / 2); PI / 2; 0; PI / 2; 0] pose_top.
Proof. intros [x y z]. unfold r_ik. rewrite r6_point. unfold pose_top. vsolve. f_equal; field. Qed.
Lemma pose_top_wrist lo up : wrist_of (r_ik lo up) pose_top (vadd vzero (vscale 1 ex)) (tR pose_top) (V3 0 0 1).
Proof. intros [x y z]. change (act_opt (rbase (r_ik lo up))) with (fun x : vec3 => x). unfold point6, act_tool, pose_top. cbn [r_ik r6 rbase rflange rRtool rptool act_opt]. vsolve. f_equal; ring. Qed.
(** Far away *)
Definition pose_far : transform := Tf I3 (V3 100 0 0) None None.
Lemma pose_far_wrist lo up : wrist_of (r_ik lo up) pose_far (vadd vzero (vscale 1 ex)) (tR pose_far) (V3 99 0 0).
Proof. intros [x y z]. change (act_opt (rbase (r_ik lo up))) with (fun x : vec3 => x). unfold point6, act_tool, pose_far, I3. cbn [r_ik r6 rbase rflange rRtool rptool act_opt]. unfold I3. vsolve. f_equal; ring. Qed.
Lemma p34_eq : vadd (V3 (1/2) 0 0) (vscale (1/2) ex) = ex. Proof. unfold vadd, vscale, ex. cbn. f_equal; field. Qed.
Lemma perp_p2 : perp ey (V3 0 0 2) = V3 0 0 2. Proof. unfold perp. la_ring. Qed.
Lemma perp_p3 : perp ey ex = ex. Proof. unfold perp. la_ring. Qed.
Lemma norm_p2 : norm (V3 0 0 2) = 2. Proof. apply norm_of_sq; [lra|]. la_ring. Qed.
Lemma norm_ex : norm ex = 1. Proof. apply norm_of_sq; [lra|]. la_ring. Qed.
Lemma V3_nz a b c : a <> 0 \/ b <> 0 \/ c <> 0 -> V3 a b c <> vzero.
Proof. intros H E. inversion E. intuition. Qed.
Lemma norm_big v s : 0 <= s -> s * s <= dot v v -> s <= norm v.
Proof. intros H E. unfold norm, norm2. apply sqrt_le_1_alt in E. rewrite sqrt_square in E; auto. Qed.
Lemma r_ik_geometry : dot ez ey = 0 /\ ~ on_axis ey (V3 0 0 2) /\ ~ on_axis ey (vadd (V3 (1/2) 0 0) (vscale (1/2) ex)) /\
  norm (perp ey (V3 0 0 2)) <> norm (perp ey (vadd (V3 (1/2) 0 0) (vscale (1/2) ex))) /\
  sqrt_eps <= norm (vsub (dir (perp ey (vadd (V3 (1/2) 0 0) (vscale (1/2) ex)))) (dir (perp ey (V3 0 0 2)))).
Proof.
  rewrite p34_eq. unfold on_axis. rewrite perp_p2, perp_p3, norm_p2, norm_ex. split. { la_ring. }
  split. { apply V3_nz. right; right; lra. } split. { apply V3_nz. left; lra. } split. { lra. }
  pose proof sqrt_eps_lt1. pose proof sqrt_eps_pos. unfold dir. rewrite norm_p2, norm_ex.
  apply norm_big; [lra|]. replace (vsub (vscale (/ 1) ex) (vscale (/ 2) (V3 0 0 2))) with (V3 1 0 (-1)).
  - unfold dot. cbn. nra.
  - unfold vsub, vscale, ex. cbn. f_equal; field.
Qed.
Lemma rotate_ey q a b c : rotate ey q (V3 a b c) = V3 (cos q * a + sin q * c) b (cos q * c - sin q * a). Proof. unfold rotate. la_ring. Qed.
Lemma rotate_ez q a b c : rotate ez q (V3 a b c) = V3 (cos q * a - sin q * b) (cos q * b + sin q * a) c. Proof. unfold rotate. la_ring. Qed.
Lemma wrist_position q1 q2 q3 : vadd ez (rotate ez q1 (vadd ex (rotate ey q2 (vadd (V3 0 0 2) (rotate ey q3 ex))))) =
  V3 (cos q1 * (1 + 2 * sin q2 + cos (q2 + q3))) (sin q1 * (1 + 2 * sin q2 + cos (q2 + q3))) (1 + 2 * cos q2 - sin (q2 + q3)).
Proof.
  rewrite cos_plus, sin_plus. change ex with (V3 1 0 0). rewrite rotate_ey, vadd_V3, rotate_ey, vadd_V3, rotate_ez.
  change (vadd ez) with (vadd (V3 0 0 1)). rewrite vadd_V3. f_equal; ring.
Qed.
Lemma wrist_axis q1 q2 q3 : rotate ez q1 (rotate ey q2 (rotate ey q3 ex)) = V3 (cos q1 * cos (q2 + q3)) (sin q1 * cos (q2 + q3)) (- sin (q2 + q3)).
Proof. rewrite cos_plus, sin_plus. change ex with (V3 1 0 0). rewrite rotate_ey, rotate_ey, rotate_ez. f_equal; ring. Qed.
Lemma norm_comp v s : norm v <= s -> vx v * vx v <= s * s /\ vy v * vy v <= s * s.
Proof.
  intros H. assert (dot v v <= s * s).
  { rewrite (norm_to_sq v (norm v)) by reflexivity. pose proof (norm_nonneg v). nra. }
  unfold dot in *. nra.
Qed.
Lemma r_ik_wrist : forall q1 q2 q3,
  norm (vsub (vadd ez (rotate ez q1 (vadd ex (rotate ey q2 (vadd (V3 0 0 2) (rotate ey q3 (vadd (V3 (1/2) 0 0) (vscale (1/2) ex)))))))) (V3 2 0 3))
    <= Rmax 1 (norm (vadd (V3 (1/2) 0 0) (vscale (1/2) ex))) * sqrt_eps ->
  let c := dot (mvec (tR pose_reg) ex) (rotate ez q1 (rotate ey q2 (rotate ey q3 ex))) in eps <= 1 - c * c.
Proof.
  intros q1 q2 q3. rewrite p34_eq, wrist_position, norm_ex, Rmax_left, Rmult_1_l by lra. intros N c.
  assert (E : c = sin q1 * cos (q2 + q3)).
  { unfold c. rewrite wrist_axis. unfold pose_reg, mvec, ex, dot. cbn. ring. }
  apply norm_comp in N. revert N. unfold vsub. cbn [vx vy]. set (X := 1 + 2 * sin q2 + cos (q2 + q3)).
  pose proof sqrt_eps_lt1 as S1. pose proof sqrt_eps_pos as S0. set (s := sqrt_eps) in *.
  pose proof (sin2_cos2 q1) as SC. unfold Rsqr in SC. pose proof (COS_bound (q2 + q3)) as CB.
  revert SC E. generalize (sin q1) (cos q1). intros a b SC E [N1 N2].
  assert (SS : s * s < 1 / 10000) by nra.
  assert (Eps : eps <= 1 / 4). { unfold eps. lra. }
  assert (X1 : 19 / 10 <= b * X). { destruct (Rle_dec (19/10) (b * X)); auto. nra. }
  assert (X2 : 3 <= X * X). { assert ((b * X) * (b * X) <= X * X) by nra. nra. }
  assert (A : a * a <= 1 / 30000). { assert (3 * (a * a) <= (a * X) * (a * X)) by nra. nra. }
  assert (c * c <= 1 / 2). { rewrite E. set (g := cos (q2 + q3)) in *. assert (g * g <= 1) by nra. nra. }
  lra.
Qed.
Lemma q_reg_regular : let e := vadd (V3 0 0 2) (rotate ey 0 (vadd (V3 (1/2) 0 0) (vscale (1/2) ex))) in
  ~ on_axis ez (rotate ez 0 (vadd ex (rotate ey 0 e))) /\ ~ on_axis ey e /\ eps <= sin (PI / 2) * sin (PI / 2) /\
  clear_move ey 0 e /\ clear_move ex (PI / 2) (rotate ey (PI / 2) ex) /\ clear_move ex 0 ey /\
  (forall j t, nth_error q_reg j = Some t -> allowed r_ikl j t /\ Rabs t < 3 / 2 * PI).
Proof.
  pose proof PI_lower. pose proof PI_4. pose proof sqrt_eps_lt1. pose proof sqrt_eps_pos. cbv zeta.
  rewrite ?p34_eq, ?rotate_0.
  split. { intros Z. unfold on_axis, perp in Z. revert Z. unfold vadd, vsub, vscale, dot, ex, ez. cbn. apply V3_nz. left. lra. }
  split. { intros Z. unfold on_axis, perp in Z. revert Z. unfold vadd, vsub, vscale, dot, ex, ey. cbn. apply V3_nz. left. lra. }
  split. { rewrite sin_PI2. unfold eps. lra. }
  split. { left. apply rotate_0. }
  split. { right. apply norm_big; [lra|]. change ex with (V3 1 0 0). rewrite rotate_y, rotate_x. unfold dot, vsub. cbn. nra. }
  split. { left. apply rotate_0. }
  intros j t J. assert (B : t = 0 \/ t = PI / 2).
  { do 6 (destruct j as [|j]; [simpl in J; inversion J; auto|]). destruct j; discriminate. }
  split. { apply r_ikl_allowed. destruct B as [-> | ->]; lra. }
  destruct B as [-> | ->]; [rewrite Rabs_R0|rewrite Rabs_right by lra]; lra.
Qed.
Example C40_ex : rigid pose_reg /\ reaches r_ikl q_reg pose_reg /\
  exists res, snd (robot6_sphericalwrist_invkin insertion_argsort r_ikl pose_reg None) = Ok res /\ exists q, In q res /\ turns_eq q q_reg.
Proof.
  split; [apply pose_reg_rigid|]. split; [apply q_reg_reaches|].
  destruct r_ik_geometry as (Y0 & O2 & O3 & NE & Q).
  destruct (C40_regular insertion_argsort insertion_argsort_spec r_ikl _ _ _ _ _ _ _ _ _ _ _ _ _ r_ikl_opw r_ikl_aux Y0 O2 O3 NE Q
    pose_reg (tR pose_reg) (V3 2 0 3) pose_reg_rigid (pose_reg_wrist _ _) (or_introl r_ikl_limited) r_ik_wrist) as (res & E & H).
  exists res. split; auto. destruct q_reg_regular as (R1 & R2 & R3 & R4 & R5 & R6 & R7).
  apply H; auto. apply q_reg_reaches.
Qed.
(** Starting a little away from the solution: it is found, and something at least as near comes first. *)
Definition q_near : list R := [1/10; 1/10; 1/10; PI / 2 + 1/10; PI / 2; 1/10].
Example C65_ex : q_near <> q_reg /\ exists q rest, snd (robot6_sphericalwrist_invkin insertion_argsort r_ikl pose_reg (Some q_near)) = Ok (q :: rest) /\
  In q_reg (q :: rest) /\ euclid q q_near <= euclid q_reg q_near.
Proof.
  split. { unfold q_near, q_reg. intros E. inversion E. lra. }
  destruct r_ik_geometry as (Y0 & O2 & O3 & NE & Q). destruct q_reg_regular as (R1 & R2 & R3 & R4 & R5 & R6 & R7).
  apply (C65_regular insertion_argsort insertion_argsort_spec r_ikl _ _ _ _ _ _ _ _ _ _ _ _ _ r_ikl_opw r_ikl_aux Y0 O2 O3 NE Q
    pose_reg (tR pose_reg) (V3 2 0 3) pose_reg_rigid (pose_reg_wrist _ _) (or_introl r_ikl_limited) r_ik_wrist); auto.
  - apply q_reg_reaches.
  - intros j t lj J L. pose proof PI_lower. assert (B : lj - t = 0 \/ lj - t = 1/10).
    { unfold q_near in L. do 6 (destruct j as [|j]; [simpl in J, L; inversion J; inversion L; subst; try (left; lra); right; lra|]). destruct j; discriminate. }
    apply Rabs_def1; lra.
Qed.
(** The premise of C38 is met by that call. *)
Example C38_ex : exists res, snd (robot6_sphericalwrist_invkin insertion_argsort r_ikl pose_reg (Some q_near)) = Ok res /\ res <> [].
Proof. destruct C65_ex as (_ & q & rest & E & _). exists (q :: rest). split; [auto|discriminate]. Qed.
(** At the zero position of the same robot the call raises although a solution exists. *)
Theorem C40_singular_refuted : exists argsort r pose q, argsort_spec argsort /\ wf_robot r /\ rigid pose /\ reaches r q pose /\ within_limits r q /\
  snd (robot6_sphericalwrist_invkin argsort r pose None) = Err AssertionError.
Proof.
  exists insertion_argsort, r_ikl, pose_zero, [0; 0; 0; 0; 0; 0].
  split; [apply insertion_argsort_spec|]. split; [apply (opw_wf _ _ _ _ _ _ _ _ _ _ _ _ _ _ r_ikl_opw)|]. split; [apply SO3_I|]. split; [apply q_zero_reaches|].
  pose proof PI_lower. split. { split; repeat apply Forall2_cons; try apply Forall2_nil; lra. }
  destruct r_ik_geometry as (Y0 & O2 & O3 & NE & Q).
  apply (C40_singular insertion_argsort insertion_argsort_spec r_ikl _ _ _ _ _ _ _ _ _ _ _ _ _ r_ikl_opw r_ikl_aux Y0 O2 O3 Q
    pose_zero 0 0 0 0 0 0); rewrite ?p34_eq, ?rotate_0.
  - apply SO3_I.
  - apply q_zero_reaches.
  - intros Z. unfold on_axis, perp in Z. revert Z. unfold vadd, vsub, vscale, dot, ex, ez. cbn. apply V3_nz. left. lra.
  - intros Z. unfold on_axis, perp in Z. revert Z. unfold vadd, vsub, vscale, dot, ex, ey. cbn. apply V3_nz. left. lra.
  - left. apply rotate_0.
  - intros j t J. assert (B : t = 0) by (do 3 (destruct j as [|j]; [simpl in J; inversion J; auto|]); destruct j; discriminate).
    split. + apply r_ikl_allowed. lra. + rewrite B, Rabs_R0. lra.
  - rewrite sin_0. pose proof eps_pos. lra.
Qed.
(** With the wrist above the base a reachable pose gives the empty list. *)
Theorem C40_shoulder_refuted : exists argsort r pose q, argsort_spec argsort /\ wf_robot r /\ rigid pose /\ reaches r q pose /\ within_limits r q /\
  snd (robot6_sphericalwrist_invkin argsort r pose None) = Ok [].
Proof.
  exists insertion_argsort, r_ikl, pose_top, [0; - (PI / 2); PI / 2; 0; PI / 2; 0].
  split; [apply insertion_argsort_spec|]. split; [apply (opw_wf _ _ _ _ _ _ _ _ _ _ _ _ _ _ r_ikl_opw)|].
  split. { unfold rigid, is_SO3, pose_top. cbn [tR]. split; la_ring. } split; [apply q_top_reaches|].
  pose proof PI_lower. pose proof PI_4. split. { split; repeat apply Forall2_cons; try apply Forall2_nil; lra. }
  apply (C40_shoulder insertion_argsort insertion_argsort_spec r_ikl _ _ _ _ _ _ _ _ _ _ _ _ _ r_ikl_opw r_ikl_aux
    pose_top (tR pose_top) (V3 0 0 1) (pose_top_wrist _ _)); [|apply r_ikl_limited].
  intros t. rewrite p34_eq. unfold rotate, vadd, vscale, dot, cross, ex, ey, ez. cbn. ring.
Qed.
Example C63_ex : exists res, snd (robot6_sphericalwrist_invkin insertion_argsort r_ikl pose_reg None) = Ok res /\ res <> [].
Proof. destruct C40_ex as (_ & _ & res & E & q & I & _). exists res. split; auto. intros ->. destruct I. Qed.
(** The premises of C36 and C37 are met by the answer found above. *)
Example C36_ex : opw r_ikl ez ey ey ex ey ex ez ex (V3 0 0 2) (V3 (1/2) 0 0) (vscale (1/2) ex) (vscale 1 ex) vzero /\ wf_aux r_ikl /\ rigid pose_reg /\
  exists res q, snd (robot6_sphericalwrist_invkin insertion_argsort r_ikl pose_reg None) = Ok res /\ In q res.
Proof.
  split; [apply r_ikl_opw|]. split; [apply r_ikl_aux|]. split; [apply pose_reg_rigid|].
  destruct C40_ex as (_ & _ & res & E & q & I & _). eauto.
Qed.
Example C39_ex : norm (vadd ez ex) + norm (V3 0 0 2) + norm (vadd (V3 (1/2) 0 0) (vscale (1/2) ex)) < norm (V3 99 0 0) /\
  snd (robot6_sphericalwrist_invkin insertion_argsort r_ikl pose_far None) = Ok [] /\
  snd (robot6_sphericalwrist_invkin insertion_argsort r_ikl pose_far (Some q_reg)) = Err ValueError.
Proof.
  assert (F : norm (vadd ez ex) + norm (V3 0 0 2) + norm (vadd (V3 (1/2) 0 0) (vscale (1/2) ex)) < norm (V3 99 0 0)).
  { rewrite p34_eq, norm_p2, norm_ex. pose proof (norm_triangle ez ex) as T. rewrite norm_ex in T.
    assert (norm ez = 1) by (apply norm_of_sq; [lra|la_ring]).
    assert (99 <= norm (V3 99 0 0)) by (apply norm_big; [lra|unfold dot; cbn; lra]). lra. }
  split; auto.
  split; (refine (proj2 (C39_far insertion_argsort insertion_argsort_spec r_ikl _ _ _ _ _ _ _ _ _ _ _ _ _ r_ikl_opw r_ikl_aux pose_far _ (tR pose_far) (V3 99 0 0) _ (pose_far_wrist _ _) F (or_introl r_ikl_limited))));
  intros l E; inversion E; reflexivity.
Qed.
(** False as stated: with last_joints the answer to an unreachable pose is a ValueError. *)
Theorem C39_last_refuted : exists argsort r pose lj, argsort_spec argsort /\ wf_robot r /\ rigid pose /\ length lj = 6%nat /\
  (forall q, length q = 6%nat -> ~ reaches r q pose) /\ snd (robot6_sphericalwrist_invkin argsort r pose (Some lj)) = Err ValueError.
Proof.
  exists insertion_argsort, r_ikl, pose_far, q_reg.
  split; [apply insertion_argsort_spec|]. split; [apply (opw_wf _ _ _ _ _ _ _ _ _ _ _ _ _ _ r_ikl_opw)|]. split; [apply SO3_I|]. split; auto. destruct C39_ex as (F & _ & E). split; auto.
  refine (proj1 (C39_far insertion_argsort insertion_argsort_spec r_ikl _ _ _ _ _ _ _ _ _ _ _ _ _ r_ikl_opw r_ikl_aux pose_far None (tR pose_far) (V3 99 0 0) _ (pose_far_wrist _ _) F (or_introl r_ikl_limited))).
  discriminate.
Qed.
(** Without limits an unreachable pose can fail an assertion: a shoulder offset two to the side and
    the wrist at the base. *)
Definition r_side : robot := r6 ez (V3 0 (-2) 0) (V3 0 0 2) (V3 (1/2) 0 0) (vscale (1/2) ex) (vscale 1 ex) vzero None None.
Theorem C39_nan_refuted : exists argsort r pose, argsort_spec argsort /\ wf_robot r /\ rigid pose /\
  (forall q, length q = 6%nat -> ~ reaches r q pose) /\ snd (robot6_sphericalwrist_invkin argsort r pose None) = Err AssertionError.
Proof.
  assert (O : opw r_side ez ey ey ex ey ex ez (V3 0 (-2) 0) (V3 0 0 2) (V3 (1/2) 0 0) (vscale (1/2) ex) (vscale 1 ex) vzero) by (apply opw_r6; auto using none6).
  assert (WA : wf_aux r_side) by apply r6_aux.
  set (pose := Tf I3 (V3 2 0 0) None None).
  assert (WO : wrist_of r_side pose (vadd vzero (vscale 1 ex)) I3 ex).
  { intros [x y z]. change (act_opt (rbase r_side)) with (fun x : vec3 => x). unfold point6, act_tool, pose, I3. cbn [r_side r6 rbase rflange rRtool rptool act_opt]. vsolve. f_equal; ring. }
  assert (S : forall t, dot ey (vadd (vadd (V3 0 (-2) 0) (V3 0 0 2)) (vadd (V3 (1/2) 0 0) (vscale (1/2) ex))) < dot ey (rotate ez (- t) ex)).
  { intros t. rewrite p34_eq. unfold rotate, vadd, vscale, dot, cross, ex, ey, ez. cbn. pose proof (SIN_bound (- t)). lra. }
  exists insertion_argsort, r_side, pose. split; [apply insertion_argsort_spec|]. split; [apply (opw_wf _ _ _ _ _ _ _ _ _ _ _ _ _ _ O)|]. split; [apply SO3_I|].
  destruct (C39_close insertion_argsort insertion_argsort_spec r_side _ _ _ _ _ _ _ _ _ _ _ _ _ O WA pose None I3 ex) as (A & _ & _ & B); auto. { discriminate. }
  split. - apply A. intros t. specialize (S t). lra. - apply B; auto. left. reflexivity.
Qed.
Print Assumptions C36_sound. Print Assumptions C37_limits. Print Assumptions C38_robot6. Print Assumptions C39_far. Print Assumptions C40_regular. Print Assumptions C40_singular. Print Assumptions C63_robot6_regular. Print Assumptions C65_regular.
