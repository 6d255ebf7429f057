(** Proofs about slerp and the quaternion rate. *)
From Coq Require Import Reals Lra Psatz Bool.
From Verif Require Import LinAlg RealAux Py ModelRot SpecRot FactsReal FactsLinAlg FactsRot FactsRot2 FactsDeriv.
Open Scope R_scope.

Lemma qdot_nonneg a : 0 <= qdot a a.
Proof. destruct a; la_unfold; nra. Qed.
Lemma qnorm_sq a : qnorm a * qnorm a = qdot a a.
Proof. unfold qnorm. apply sqrt_sqrt, qdot_nonneg. Qed.
Lemma qnorm_nonneg a : 0 <= qnorm a.
Proof. apply sqrt_pos. Qed.
Lemma qnorm_unit a : unit4 a -> qnorm a = 1.
Proof. unfold unit4, qnorm. intros ->. apply sqrt_1. Qed.
Lemma qdot_qscale_l s a b : qdot (qscale s a) b = s * qdot a b. Proof. la_ring. Qed.
Lemma qdot_qscale_r s a b : qdot a (qscale s b) = s * qdot a b. Proof. la_ring. Qed.
Lemma qdot_qneg_l a b : qdot (qneg a) b = - qdot a b. Proof. la_ring. Qed.
Lemma qdot_qneg_r a b : qdot a (qneg b) = - qdot a b. Proof. la_ring. Qed.
Lemma qdot_comm a b : qdot a b = qdot b a. Proof. la_ring. Qed.
Lemma qdiv_scale a s : qdiv a s = qscale (/ s) a.
Proof. intros; la_destruct; la_unfold; unfold Rdiv; f_equal; ring. Qed.
Lemma qneg_qneg a : qneg (qneg a) = a. Proof. la_ring. Qed.
Lemma qdiv_1 a : qdiv a 1 = a.
Proof. destruct a; la_unfold. f_equal; field. Qed.
Lemma qdiv_qneg a s : qdiv (qneg a) s = qneg (qdiv a s).
Proof. rewrite !qdiv_scale. la_ring. Qed.
Lemma qnorm_qneg a : qnorm (qneg a) = qnorm a.
Proof. unfold qnorm. rewrite qdot_qneg_l, qdot_qneg_r, Ropp_involutive. reflexivity. Qed.

(** the unit quaternion in the direction of a *)
Lemma qdiv_unit a : qnorm a <> 0 -> unit4 (qdiv a (qnorm a)).
Proof.
  intros H. red. rewrite qdiv_scale, qdot_qscale_l, qdot_qscale_r, <- qnorm_sq. field. auto.
Qed.

Lemma qdot_hamilton a b : q0 (hamilton (qconj a) b) = qdot a b.
Proof. rot_ring. Qed.
Lemma hamilton_conj_cancel a b : unit4 a -> hamilton a (hamilton (qconj a) b) = b.
Proof.
  intros H. rewrite <- hamilton_assoc, hamilton_conj_r. red in H. rewrite H. apply hamilton_one_l.
Qed.
Lemma qdot_bound a b : unit4 a -> unit4 b -> -1 <= qdot a b <= 1.
Proof.
  intros Ha Hb. rewrite <- qdot_hamilton.
  pose proof (unit4_hamilton _ _ (unit4_conj _ Ha) Hb) as U.
  destruct (hamilton (qconj a) b). unfold unit4 in U. la_unfold. nra.
Qed.

(** b = a (cos th + sin th k) for th the angle between a and b. *)
Lemma rel_axis a b : unit4 a -> unit4 b ->
  exists k, unit3 k /\ b = hamilton a (qmk (cos (acos (qdot a b))) (vscale (sin (acos (qdot a b))) k)).
Proof.
  intros Ha Hb. pose proof (unit4_hamilton _ _ (unit4_conj _ Ha) Hb) as U.
  destruct (quat_axis_angle _ U) as (k & t & Hk & Ht & E).
  exists k. split; auto. rewrite <- (hamilton_conj_cancel a b) at 1 by auto. f_equal. rewrite E.
  assert (acos (qdot a b) = t / 2).
  { rewrite <- qdot_hamilton, E. unfold qmk at 1; cbn [q0]. apply acos_cos. lra. }
  rewrite H. reflexivity.
Qed.

Lemma slerp_combo a k th u : unit3 k -> sin th <> 0 ->
  qdiv (qadd (qscale (sin (th - u)) a) (qscale (sin u) (hamilton a (qmk (cos th) (vscale (sin th) k))))) (sin th)
  = hamilton a (qmk (cos u) (vscale (sin u) k)).
Proof.
  intros Hk Hs. rewrite sin_minus. rewrite qdiv_scale.
  generalize dependent (sin th). intros S HS. generalize (cos th), (sin u), (cos u). intros C s c.
  destruct a, k; rot_unfold. apply quat_eq; simpl; field; auto.
Qed.

(** What slerp computes: with a2 the (possibly negated) unit quaternion of a. *)
Lemma slerp_value a b t : 0 <= t <= 1 -> qnorm a <> 0 -> qnorm b <> 0 ->
  let a1 := qdiv a (qnorm a) in
  let b1 := qdiv b (qnorm b) in
  let a2 := if Rltb (qdot a1 b1) 0 then qneg a1 else a1 in
  unit4 a2 /\ unit4 b1 /\ 0 <= qdot a2 b1 <= 1 /\ 0 <= acos (qdot a2 b1) <= PI / 2 /\
  exists k, unit3 k /\
    b1 = hamilton a2 (qmk (cos (acos (qdot a2 b1))) (vscale (sin (acos (qdot a2 b1))) k)) /\
    slerp a b t = Ok (Fin (if Rltb (acos (qdot a2 b1)) (1/1000000) then a2
       else hamilton a2 (qmk (cos (t * acos (qdot a2 b1))) (vscale (sin (t * acos (qdot a2 b1))) k)))).
Proof.
  intros Ht Ha Hb a1 b1 a2.
  assert (U1 : unit4 a1) by (apply qdiv_unit; auto).
  assert (V1 : unit4 b1) by (apply qdiv_unit; auto).
  assert (U2 : unit4 a2) by (unfold a2; destruct (Rltb _ _); auto using unit4_neg).
  assert (D : 0 <= qdot a2 b1).
  { unfold a2. destruct (Rltb (qdot a1 b1) 0) eqn:C; [apply Rltb_true in C; rewrite qdot_qneg_l; lra|apply Rltb_false in C; lra]. }
  pose proof (qdot_bound a2 b1 U2 V1) as B.
  set (th := acos (qdot a2 b1)).
  assert (Cth : cos th = qdot a2 b1) by (apply cos_acos; lra).
  pose proof (acos_bound (qdot a2 b1)) as AB. fold th in AB. pose proof PI_pos as PP.
  assert (T2 : th <= PI / 2).
  { destruct (Rle_dec th (PI/2)); auto. exfalso.
    assert (cos th < 0) by (apply cos_lt_0; lra). lra. }
  repeat split; auto; try lra.
  destruct (rel_axis a2 b1 U2 V1) as (k & Hk & Eb). fold th in Eb.
  exists k. split; auto. split; auto.
  unfold slerp. rewrite !Rleb_le by lra. simpl.
  destruct (Reqb (qnorm a) 0) eqn:Z1; [apply Reqb_true in Z1; lra|].
  destruct (Reqb (qnorm b) 0) eqn:Z2; [apply Reqb_true in Z2; lra|]. simpl.
  fold a1 b1. fold a2. fold th. rewrite Rabs_right by lra.
  destruct (Rltb th (1 / 1000000)) eqn:C; [reflexivity|]. apply Rltb_false in C.
  assert (S : 0 < sin th) by (apply sin_gt_0; lra).
  destruct (Reqb (sin th) 0) eqn:Z3; [apply Reqb_true in Z3; lra|].
  replace ((1 - t) * th) with (th - t * th) by ring.
  rewrite Eb. rewrite slerp_combo by (auto; lra).
  assert (UU : unit4 (hamilton a2 (qmk (cos (t * th)) (vscale (sin (t * th)) k)))).
  { apply unit4_hamilton; auto. replace (t * th) with ((2 * (t * th)) / 2) by field. apply half_unit4; auto. }
  rewrite (qnorm_unit _ UU). rewrite qdiv_1.
  destruct (Reqb 1 0) eqn:Z4; [apply Reqb_true in Z4; lra|]. reflexivity.
Qed.

Lemma slerp_unit a b t : 0 <= t <= 1 -> qnorm a <> 0 -> qnorm b <> 0 ->
  exists r, slerp a b t = Ok (Fin r) /\ unit4 r.
Proof.
  intros Ht Ha Hb. pose proof (slerp_value a b t Ht Ha Hb) as V. cbv zeta in V.
  destruct V as (U2 & V1 & _ & _ & k & Hk & _ & E). rewrite E. eexists. split; [reflexivity|].
  destruct (Rltb _ (1/1000000)); auto.
  apply unit4_hamilton; auto. 
  match goal with |- context [cos ?x] => replace x with ((2 * x) / 2) by field end. apply half_unit4; auto.
Qed.

Lemma slerp_range a b t : t < 0 \/ 1 < t -> slerp a b t = Err AssertionError.
Proof.
  intros [H|H]; unfold slerp.
  - rewrite (Rleb_gt 0 t) by auto. reflexivity.
  - rewrite (Rleb_gt t 1) by auto. rewrite andb_false_r. reflexivity.
Qed.

Lemma slerp_zero a b t : 0 <= t <= 1 -> qnorm a = 0 \/ qnorm b = 0 -> slerp a b t = Ok NaN.
Proof.
  intros Ht H. unfold slerp. rewrite !Rleb_le by lra. simpl.
  destruct H as [-> | ->]; rewrite Reqb_refl; rewrite ?orb_true_r; reflexivity.
Qed.

(** Geodesic interpolation of the rotations. *)
Lemma slerp_geodesic a b t : 0 <= t <= 1 -> qnorm a <> 0 -> qnorm b <> 0 ->
  exists r k phi, slerp a b t = Ok (Fin r) /\ unit4 r /\ unit3 k /\ 0 <= phi <= PI /\
    q2R (qdiv b (qnorm b)) = mmul (q2R (qdiv a (qnorm a))) (rot k phi) /\
    (2 / 1000000 <= phi -> q2R r = mmul (q2R (qdiv a (qnorm a))) (rot k (t * phi))) /\
    (phi < 2 / 1000000 -> q2R r = q2R (qdiv a (qnorm a))).
Proof.
  intros Ht Ha Hb. pose proof (slerp_value a b t Ht Ha Hb) as V. cbv zeta in V.
  destruct (slerp_unit a b t Ht Ha Hb) as (r & Er & Ur).
  destruct V as (U2 & V1 & Hd & Hth & k & Hk & Eb & E).
  set (a1 := qdiv a (qnorm a)) in *. set (b1 := qdiv b (qnorm b)) in *.
  set (a2 := if Rltb (qdot a1 b1) 0 then qneg a1 else a1) in *.
  assert (Ra : q2R a2 = q2R a1) by (unfold a2; destruct (Rltb _ _); rewrite ?q2R_neg; auto).
  set (th := acos (qdot a2 b1)) in *.
  assert (HU : forall u, unit4 (qmk (cos u) (vscale (sin u) k)) /\ q2R (qmk (cos u) (vscale (sin u) k)) = rot k (2 * u)).
  { intros u. replace u with ((2 * u)/2) at 1 2 3 4 by field. split. apply half_unit4; auto. apply half_q2R; auto. }
  exists r, k, (2 * th). split; auto. split; auto. split; auto. split. lra.
  rewrite Er in E. injection E as E.
  split; [|split].
  - rewrite Eb at 1. rewrite q2R_hamilton by (auto; apply HU). rewrite Ra. f_equal. apply HU.
  - intros Hp. rewrite E. rewrite Rltb_ge by lra. rewrite q2R_hamilton by (auto; apply HU). rewrite Ra. f_equal.
    destruct (HU (t * th)) as [_ ->]. f_equal. ring.
  - intros Hp. rewrite E. rewrite Rltb_lt by lra. auto.
Qed.

Lemma slerp_start a b : qnorm a <> 0 -> qnorm b <> 0 ->
  slerp a b 0 = Ok (Fin (qdiv a (qnorm a))) \/ slerp a b 0 = Ok (Fin (qneg (qdiv a (qnorm a)))).
Proof.
  intros Ha Hb. assert (Ht : 0 <= 0 <= 1) by lra. pose proof (slerp_value a b 0 Ht Ha Hb) as V. cbv zeta in V.
  destruct V as (U2 & V1 & Hd & Hth & k & Hk & Eb & E). rewrite E.
  set (a1 := qdiv a (qnorm a)) in *. set (b1 := qdiv b (qnorm b)) in *.
  set (a2 := if Rltb (qdot a1 b1) 0 then qneg a1 else a1) in *.
  assert (Hr : (if Rltb (acos (qdot a2 b1)) (1 / 1000000) then a2
     else hamilton a2 (qmk (cos (0 * acos (qdot a2 b1))) (vscale (sin (0 * acos (qdot a2 b1))) k))) = a2).
  { destruct (Rltb _ (1/1000000)); auto. rewrite Rmult_0_l, cos_0, sin_0. destruct a2, k; rot_unfold. apply quat_eq; simpl; ring. }
  rewrite Hr. unfold a2. destruct (Rltb _ 0); auto.
Qed.

Lemma slerp_end a b : qnorm a <> 0 -> qnorm b <> 0 ->
  Rabs (qdot (qdiv a (qnorm a)) (qdiv b (qnorm b))) <= cos (1 / 1000000) ->
  slerp a b 1 = Ok (Fin (qdiv b (qnorm b))).
Proof.
  intros Ha Hb Hc. assert (Ht : 0 <= 1 <= 1) by lra. pose proof (slerp_value a b 1 Ht Ha Hb) as V. cbv zeta in V.
  destruct V as (U2 & V1 & Hd & Hth & k & Hk & Eb & E). rewrite E.
  set (a1 := qdiv a (qnorm a)) in *. set (b1 := qdiv b (qnorm b)) in *.
  set (a2 := if Rltb (qdot a1 b1) 0 then qneg a1 else a1) in *.
  assert (Hc2 : qdot a2 b1 <= cos (1 / 1000000)).
  { rewrite <- (Rabs_right (qdot a2 b1)) by lra. unfold a2. destruct (Rltb _ 0); auto. rewrite qdot_qneg_l, Rabs_Ropp. auto. }
  assert (C : 1/1000000 <= acos (qdot a2 b1)).
  { destruct (Rle_dec (1/1000000) (acos (qdot a2 b1))); auto. exfalso.
    pose proof PI_lower. assert (cos (1/1000000) < cos (acos (qdot a2 b1))) by (apply cos_decreasing_1; lra).
    rewrite cos_acos in H0 by lra. lra. }
  rewrite Rltb_ge by auto. rewrite Rmult_1_l. rewrite <- Eb. reflexivity.
Qed.

Lemma slerp_neg_l a b t : qdot a b <> 0 -> slerp (qneg a) b t = slerp a b t.
Proof.
  intros Hd. unfold slerp. rewrite qnorm_qneg. destruct (assert_ _); simpl; auto.
  destruct (Reqb (qnorm a) 0) eqn:Z1; auto. destruct (Reqb (qnorm b) 0) eqn:Z2; auto. simpl.
  apply Reqb_false in Z1, Z2. rewrite qdiv_qneg, qneg_qneg, qdot_qneg_l.
  set (a1 := qdiv a (qnorm a)). set (b1 := qdiv b (qnorm b)).
  assert (qdot a1 b1 <> 0).
  { unfold a1, b1. rewrite !qdiv_scale, qdot_qscale_l, qdot_qscale_r.
    apply Rmult_integral_contrapositive_currified. apply Rinv_neq_0_compat; auto.
    apply Rmult_integral_contrapositive_currified; auto. apply Rinv_neq_0_compat; auto. }
  assert (E : (if Rltb (- qdot a1 b1) 0 then a1 else qneg a1) = (if Rltb (qdot a1 b1) 0 then qneg a1 else a1)).
  { destruct (Rltb (- qdot a1 b1) 0) eqn:C1, (Rltb (qdot a1 b1) 0) eqn:C2; auto;
    try apply Rltb_true in C1; try apply Rltb_true in C2; try apply Rltb_false in C1; try apply Rltb_false in C2; lra. }
  rewrite E. reflexivity.
Qed.

Definition neg_res (x : out (flt quat)) : out (flt quat) :=
  match x with Ok (Fin q) => Ok (Fin (qneg q)) | r => r end.

Lemma slerp_neg_r a b t : qdot a b <> 0 -> slerp a (qneg b) t = neg_res (slerp a b t).
Proof.
  intros Hd. unfold slerp. rewrite qnorm_qneg. destruct (assert_ _); simpl; auto.
  destruct (Reqb (qnorm a) 0) eqn:Z1; auto. destruct (Reqb (qnorm b) 0) eqn:Z2; auto. simpl.
  apply Reqb_false in Z1, Z2. rewrite qdiv_qneg, (qdot_qneg_r (qdiv a (qnorm a))).
  set (a1 := qdiv a (qnorm a)). set (b1 := qdiv b (qnorm b)).
  assert (qdot a1 b1 <> 0).
  { unfold a1, b1. rewrite !qdiv_scale, qdot_qscale_l, qdot_qscale_r.
    apply Rmult_integral_contrapositive_currified. apply Rinv_neq_0_compat; auto.
    apply Rmult_integral_contrapositive_currified; auto. apply Rinv_neq_0_compat; auto. }
  assert (E : (if Rltb (- qdot a1 b1) 0 then qneg a1 else a1) = qneg (if Rltb (qdot a1 b1) 0 then qneg a1 else a1)).
  { destruct (Rltb (- qdot a1 b1) 0) eqn:C1, (Rltb (qdot a1 b1) 0) eqn:C2; rewrite ?qneg_qneg; auto;
    try apply Rltb_true in C1; try apply Rltb_true in C2; try apply Rltb_false in C1; try apply Rltb_false in C2; lra. }
  rewrite E. set (a2 := if Rltb (qdot a1 b1) 0 then qneg a1 else a1).
  replace (qdot (qneg a2) (qneg b1)) with (qdot a2 b1) by (rewrite qdot_qneg_l, qdot_qneg_r; ring).
  set (th := acos (qdot a2 b1)).
  destruct (Rltb (Rabs th) _); auto. destruct (Reqb (sin th) 0); auto.
  assert (E2 : qdiv (qadd (qscale (sin ((1 - t) * th)) (qneg a2)) (qscale (sin (t * th)) (qneg b1))) (sin th)
             = qneg (qdiv (qadd (qscale (sin ((1 - t) * th)) a2) (qscale (sin (t * th)) b1)) (sin th))).
  { rewrite !qdiv_scale. la_ring. }
  rewrite E2, qnorm_qneg. match goal with |- context [qnorm ?x] => destruct (Reqb (qnorm x) 0); simpl; auto end.
  rewrite qdiv_qneg. reflexivity.
Qed.

(* ---- quaternion rate ---- *)
Lemma quatjacobian_hamilton q w : m43vec (quatjacobian q) w = qscale (1/2) (hamilton (qpure w) q).
Proof. rot_ring. Qed.
Lemma quatjacobian_tangent q w : qdot q (m43vec (quatjacobian q) w) = 0.
Proof. rot_ring. Qed.
