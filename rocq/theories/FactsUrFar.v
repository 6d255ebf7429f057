(** ur_invkin out of reach and at singular positions. *)
From Coq Require Import Reals ZArith List Bool Lia Lra Psatz Sorting.Permutation Sorting.Sorted.
From Verif Require Import LinAlg RealAux Py FactsReal FactsLinAlg ModelRot SpecRot FactsRot
  ModelTransform ModelRobot ModelKin SpecKin FactsKin FactsJac ModelSub SpecSub FactsSub ModelInvkin SpecInvkin
  FactsInvkin FactsIkGeo FactsRobot6 FactsIkErr FactsUr FactsIkOk.
Import ListNotations.
Open Scope R_scope.

Lemma sub4_beyond v h d : unit3 h -> (forall t, dot ey (rotate h (- t) v) < d) -> subproblem4 ey v (vneg h) d = [].
Proof.
  intros U0 B.
  assert (B' : forall t, dot ey (mvec (rot (vneg h) t) v) < d) by (intros t; rewrite rot_neg, rot_rotate by auto; apply B).
  destruct (subproblem4_cases ey v (vneg h) d) as [[F _]|[[_ F]|[[_ F]|(s1 & s2 & _ & _ & _ & F & _)]]]; auto; exfalso.
  - specialize (F 0). specialize (B' 0). lra. - specialize (F 0). specialize (B' 0). lra. - specialize (B' s1). lra.
Qed.
Lemma sub4_nan v h d : unit3 h -> (forall t, d < dot ey (rotate h (- t) v)) \/ (forall t, dot ey (rotate h (- t) v) = d) -> subproblem4 ey v (vneg h) d = [NaN; NaN].
Proof.
  intros U0 B.
  assert (B' : (forall t, d < dot ey (mvec (rot (vneg h) t) v)) \/ (forall t, dot ey (mvec (rot (vneg h) t) v) = d)).
  { destruct B as [B|B]; [left|right]; intros t; rewrite rot_neg, rot_rotate by auto; apply B. }
  destruct (subproblem4_cases ey v (vneg h) d) as [[_ F]|[[F _]|[[F _]|(s1 & s2 & _ & _ & _ & F & _ & _ & u & Nu)]]]; auto; exfalso.
  - specialize (F 0). destruct B' as [B'|B']; specialize (B' 0); lra.
  - destruct B' as [B'|B']. + specialize (B' s1). lra. + apply Nu, B'.
Qed.

Section UrFar.
Context (argsort : list (flt R) -> list nat) (SP : argsort_spec argsort).
Context (r : robot) (h p0 p1 p2 p3 p4 p5 p6 : vec3) (U : ur r h p0 p1 p2 p3 p4 p5 p6).
Context (pose : transform) (last : option (list R)) (LL : forall l, last = Some l -> length l = 6%nat).
Let A := tR (unapply_aux r pose).
Let p04 := vsub (tp (unapply_aux r pose)) (mvec A (vadd p6 p5)).
Let d := dot ey (vadd (vadd (vadd p1 p2) p3) p4).
Let z := normalize_joints r last false.
Lemma ur_z_len : lims_len z 6.
Proof. apply normalizer_len; auto. - apply (ur_wf _ _ _ _ _ _ _ _ _ U). - rewrite (ur_types _ _ _ _ _ _ _ _ _ U). reflexivity. Qed.
Lemma ur_no_base : (forall N1, call_flt argsort z 0 (subproblem4 ey p04 (vneg ez) d) = Ok N1 -> N1 = []) ->
  ur_invkin argsort r pose last = match last with None => Ok [] | Some _ => Err ValueError end.
Proof.
  intros AR. rewrite (ur_unfold argsort r _ _ _ _ _ _ _ _ U pose last). fold A. fold p04. fold d. fold z.
  destruct (call_flt argsort z 0 (subproblem4 ey p04 (vneg ez) d)) as [N1|e] eqn:E1.
  - rewrite (AR N1 eq_refl). cbn [bind flat_map_out]. destruct last; reflexivity.
  - exfalso. assert (X : exists N, call_flt argsort z 0 (subproblem4 ey p04 (vneg ez) d) = Ok N).
    { unfold call_flt. apply candidates_total; auto. intros x _. apply (normalize_flt_total z 6); [apply ur_z_len|lia]. }
    destruct X; congruence.
Qed.
Lemma ur_beyond : (forall t, dot ey (rotate ez (- t) p04) < d) ->
  ur_invkin argsort r pose last = match last with None => Ok [] | Some _ => Err ValueError end.
Proof.
  intros B. apply ur_no_base. rewrite (sub4_beyond _ _ _ ez_unit' B). intros N1 E1.
  destruct N1 as [|x N1]; auto. destruct (call_flt_in argsort _ _ _ _ E1) as [C _]. specialize (C x (or_introl eq_refl)). destruct C as (y & [] & _).
Qed.
Lemma ur_nan_cases : (forall t, d < dot ey (rotate ez (- t) p04)) \/ (forall t, dot ey (rotate ez (- t) p04) = d) ->
  (~ no_limits r -> ur_invkin argsort r pose last = match last with None => Ok [] | Some _ => Err ValueError end) /\
  (no_limits r -> last = None -> ur_invkin argsort r pose last = Err AssertionError).
Proof.
  intros B. pose proof (sub4_nan _ _ _ ez_unit' B) as E4. split.
  - intros NL. apply ur_no_base. rewrite E4. intros N1 E1. destruct N1 as [|x N1]; auto. exfalso.
    destruct (call_flt_in argsort _ _ _ _ E1) as [C _]. specialize (C x (or_introl eq_refl)). destruct C as (y & Iy & X).
    assert (Ey : y = NaN) by (destruct Iy as [<-|[<-|[]]]; auto). subst y.
    destruct x as [x|].
    + unfold normalize_flt in X. destruct (nlimits _) as [[ls us]|].
      * destruct (index ls 0); [|discriminate]. simpl in X. destruct (index us 0); discriminate.
      * destruct (nlast _); try discriminate. destruct (index l 0); discriminate.
    + destruct (call_flt_nan _ _ _ _ _ _ E1 (or_introl eq_refl)); auto.
  - intros NL LN. rewrite (ur_unfold argsort r _ _ _ _ _ _ _ _ U pose last). fold A. fold p04. fold d.
    rewrite E4. rewrite LN. unfold call_flt. rewrite candidates_no_last by reflexivity.
    assert (EF : filter_out (normalize_flt (normalize_joints r None false) 0) [NaN; NaN] = Ok [NaN; NaN]).
    { cbn. destruct NL as [-> | ->]; cbn; auto. destruct (rlower r); auto. }
    rewrite EF. reflexivity.
Qed.
(** too far: whatever is returned is empty *)
Lemma ur_far res : norm p0 + norm p1 + norm p2 + norm p3 + norm p4 < norm p04 -> ur_invkin argsort r pose last = Ok res -> res = [].
Proof.
  intros F E. destruct res as [|q res]; auto. exfalso.
  destruct (ur_path argsort SP r _ _ _ _ _ _ _ _ U pose last (q :: res) q E (or_introl eq_refl)) as (q1 & q2 & q3 & q4 & q5 & q6 & _ & PT).
  destruct PT as (t1 & Q & q24 & Q3 & t3 & t2 & t6 & PT). cbv zeta in PT. destruct PT as (_ & _ & (E3 & I3 & _) & _).
  pose proof (ey_line _ (ur_h _ _ _ _ _ _ _ _ _ U)) as Uh.
  rewrite subproblem3_far in E3; auto. { inversion E3; subst Q3; destruct I3. }
  fold A p04. set (b := mvec (rot ez q1) p1). set (c := mvec (mmul (rot ez q1) (rot h q24)) p4).
  assert (Nb : norm b = norm p1) by (apply SO3_norm; auto using rot_SO3, ez_unit').
  assert (Nc : norm c = norm p4) by (apply SO3_norm; auto using SO3_mmul, rot_SO3, ez_unit').
  pose proof (norm_triangle (vsub (vsub (vsub p04 p0) b) c) c) as T1. pose proof (norm_triangle (vsub (vsub p04 p0) b) b) as T2.
  pose proof (norm_triangle (vsub p04 p0) p0) as T3.
  assert (SA : forall a x : vec3, vadd (vsub a x) x = a) by (intros [] []; unfold vadd, vsub; simpl; f_equal; ring).
  rewrite SA in T1, T2, T3. lra.
Qed.
End UrFar.

Section UrSingular.
Context (argsort : list (flt R) -> list nat) (SP : argsort_spec argsort).
Context (r : robot) (h p0 p1 p2 p3 p4 p5 p6 : vec3) (U : ur r h p0 p1 p2 p3 p4 p5 p6).
Context (W : wf_aux r) (pose : transform) (RG : rigid pose).
Let A := tR (unapply_aux r pose).
Let p04 := vsub (tp (unapply_aux r pose)) (mvec A (vadd p6 p5)).
Let d := dot ey (vadd (vadd (vadd p1 p2) p3) p4).
(** an answer of the first joint's equation that aligns the wrist makes the call fail *)
Lemma ur_singular a1 : dot ey (rotate ez (- a1) p04) = d -> ~ on_axis ez p04 -> allowed r 0 a1 -> Rabs a1 < 3 / 2 * PI ->
  (let c := dot (mvec A ey) (rotate ez a1 ey) in 1 - c * c < eps) ->
  ur_invkin argsort r pose None = Err AssertionError.
Proof.
  intros D1 Hc L1 B1 G. pose proof PI_pos as PP.
  pose proof (ur_wf _ _ _ _ _ _ _ _ _ U) as WF. pose proof (ur_types _ _ _ _ _ _ _ _ _ U) as TY.
  pose proof (ur_h _ _ _ _ _ _ _ _ _ U) as Lh. pose proof (ey_line _ Lh) as Uh.
  pose proof ez_unit' as Uz. pose proof (unit_neg _ Uz) as Uz'. pose proof (h_ez h Lh) as Phz.
  pose proof (rigid_unapply_aux r pose W RG) as SA. fold A in SA. unfold rigid in SA.
  rewrite (ur_invkin_sols argsort r _ _ _ _ _ _ _ _ U pose None).
  destruct (ur_sols argsort r p1 p2 p3 p4 p5 p6 pose None) as [sols|e] eqn:ES.
  2:{ cbn [bind]. f_equal. eapply (ur_sols_err argsort SP r _ _ _ _ _ _ _ _ U pose None); eauto. discriminate. }
  exfalso. unfold ur_sols in ES. fold A in ES. fold p04 in ES. fold d in ES.
  rewrite <- (rot_rotate ez) in D1 by auto. rewrite <- (rot_neg ez) in D1.
  assert (Uey : unit3 ey) by (unfold unit3, norm2, dot, ey; simpl; ring).
  destruct (turn_moves (vneg ez) ey p04) as [t0 T0]; auto.
  { unfold dot, vneg, ez, ey; simpl; ring. } { rewrite perp_neg. auto. }
  assert (exists t1, In (Fin t1) (subproblem4 ey p04 (vneg ez) d) /\ ang_eq t1 a1) as (t1 & I1 & A1).
  { destruct (subproblem4_cases ey p04 (vneg ez) d) as [[_ F]|[[_ F]|[[_ F]|(s1 & s2 & F & _ & _ & _ & _ & X & _)]]].
    - specialize (F a1). lra.
    - specialize (F a1). lra.
    - exfalso. apply T0. rewrite F. rewrite <- (F 0), rot_0, mvec_I. auto.
    - rewrite F. destruct (X a1 D1); [exists s1|exists s2]; simpl; auto. }
  pose proof (subproblem4_range _ _ _ _ _ I1) as R1. apply Rabs_def2 in B1.
  destruct (normalize_gets r 0 t1 a1) as (q1 & M1 & K1); auto. { rewrite TY. simpl. lia. } { apply Rabs_def1; lra. }
  destruct (call_flt argsort (normalize_joints r None false) 0 _) as [N1|] eqn:E1; [|discriminate]. cbn [bind] in ES.
  destruct (call_flt_in argsort _ _ _ _ E1) as [_ C1]. specialize (C1 eq_refl _ (Fin q1) I1). simpl in C1. rewrite M1 in C1. specialize (C1 eq_refl).
  destruct (flat_map_out_ok _ _ _ ES _ C1) as [ys F1].
  rewrite (ur_H _ _ _ _ _ _ _ _ _ U), (ur_P _ _ _ _ _ _ _ _ _ U) in F1.
  unfold ur_arm, index in F1. cbn [nth_error bind] in F1. cbv zeta in F1.
  rewrite (wrist_singular h (vneg ez) h) in F1; auto.
  - discriminate.
  - left; auto.
  - apply SO3_unit; auto using SO3_mmul, SO3_T, rot_SO3.
  - cbv zeta in G. rewrite <- (rot_rotate ez) in G by auto. rewrite (rot_ang_eq ez q1 a1 K1).
    rewrite (mvec_mmul (mT (rot ez a1)) A h). rewrite <- (SO3_dot (rot ez a1)), (SO3_vec_T (rot ez a1)) by auto using rot_SO3.
    destruct Lh as [-> | ->]; auto. rewrite !mvec_vneg, dot_vneg_l, dot_vneg_r. set (c := dot (mvec A ey) (mvec (rot ez a1) ey)) in *. lra.
Qed.
End UrSingular.

(** The range of the angles that are not normalised *)
Lemma path_ur_turn z h P0 P1 P2 P3 P4 A p04 q1 q2 q3 q4 q5 q6 : h = ey \/ h = vneg ey -> is_SO3 A ->
  path_ur z ez h h h (vneg ez) h P0 P1 P2 P3 P4 A p04 q1 q2 q3 q4 q5 q6 ->
  - PI <= q5 <= PI /\ exists q24, - PI <= q24 <= PI /\ normalize z 3 (q24 - q2 - q3) = Ok (Some q4).
Proof.
  intros Lh SA (t1 & Q & q24 & Q3 & t3 & t2 & t6 & PT). cbv zeta in PT. destruct PT as (_ & (E2 & I2) & _ & _ & M4 & _).
  pose proof (ey_line _ Lh) as Uh. pose proof ez_unit' as Uz. pose proof (unit_neg _ Uz) as Uz'. pose proof (h_ez h Lh) as Phz.
  set (R16 := mmul (mT (rot ez q1)) A) in *. assert (S16 : is_SO3 R16) by (unfold R16; auto using SO3_mmul, SO3_T, rot_SO3).
  assert (G : eps <= cone_gap h (mvec R16 h) h (vneg ez)).
  { rewrite wrist_gap by (auto; rewrite dot_comm; auto). destruct (Rlt_le_dec (1 - dot (mvec R16 h) h * dot (mvec R16 h) h) eps) as [L|L]; auto.
    rewrite (wrist_singular h (vneg ez) h (mvec R16 h)) in E2; auto using SO3_unit. discriminate. left; auto. }
  assert (HK : eps <= Rabs (1 - dot h (vneg ez) * dot h (vneg ez))). { rewrite Phz, Rabs_right; pose proof eps_small; lra. }
  destruct (subproblem2_range _ _ _ _ _ q24 q5 Uh Uz' HK G ltac:(rewrite SO3_dot; auto) E2 I2) as [B4 B5]. split; auto. exists q24. auto.
Qed.
(** without last_joints at most one turn is added *)
Lemma normalize_turns r j t x : wf_robot r -> (j < length (rtype r))%nat -> normalize (normalize_joints r None false) j t = Ok (Some x) ->
  x = t \/ x = t - 2 * PI \/ x = t + 2 * PI.
Proof.
  intros W J E. destruct (lims_total (normalize_joints r None false) (length (rtype r)) j) as [lu L]; auto.
  { apply normalizer_len; auto. discriminate. }
  destruct (normalize_spec _ j t lu L ltac:(discriminate)) as [(F & _)|(y & F & _ & _ & X & _)]; [congruence|].
  rewrite F in E. inversion E; subst. auto.
Qed.
