(** Lemmas about [RealAux]. *)
From Coq Require Import Reals ZArith Lra Lia Psatz.
From Verif Require Import RealAux.
Open Scope R_scope.

Lemma Rltb_true x y : Rltb x y = true <-> x < y.
Proof. unfold Rltb; destruct (Rlt_dec x y); split; intros; auto; try discriminate; lra. Qed.
Lemma Rltb_false x y : Rltb x y = false <-> y <= x.
Proof. unfold Rltb; destruct (Rlt_dec x y); split; intros; auto; try discriminate; lra. Qed.
Lemma Rleb_true x y : Rleb x y = true <-> x <= y.
Proof. unfold Rleb; destruct (Rle_dec x y); split; intros; auto; try discriminate; lra. Qed.
Lemma Rleb_false x y : Rleb x y = false <-> y < x.
Proof. unfold Rleb; destruct (Rle_dec x y); split; intros; auto; try discriminate; lra. Qed.
Lemma Reqb_true x y : Reqb x y = true <-> x = y.
Proof. unfold Reqb; destruct (Req_EM_T x y); split; intros; auto; try discriminate; lra. Qed.
Lemma Reqb_false x y : Reqb x y = false <-> x <> y.
Proof. unfold Reqb; destruct (Req_EM_T x y); split; intros; auto; try discriminate; tauto. Qed.

(** Case split on a boolean comparison, leaving the order fact. *)
Ltac rcase e :=
  let H := fresh "C" in
  destruct e eqn:H;
  first [apply Rltb_true in H | apply Rltb_false in H | apply Rleb_true in H
        | apply Rleb_false in H | apply Reqb_true in H | apply Reqb_false in H | idtac].
Ltac rcases :=
  repeat match goal with
  | |- context [if ?e then _ else _] =>
      match e with Rltb _ _ => rcase e | Rleb _ _ => rcase e | Reqb _ _ => rcase e end
  | H : context [if ?e then _ else _] |- _ =>
      match e with Rltb _ _ => rcase e | Rleb _ _ => rcase e | Reqb _ _ => rcase e end
  end.

Lemma Rltb_lt x y : x < y -> Rltb x y = true.
Proof. apply Rltb_true. Qed.
Lemma Rltb_ge x y : y <= x -> Rltb x y = false.
Proof. apply Rltb_false. Qed.
Lemma Rleb_le x y : x <= y -> Rleb x y = true.
Proof. apply Rleb_true. Qed.
Lemma Rleb_gt x y : y < x -> Rleb x y = false.
Proof. apply Rleb_false. Qed.
Lemma Reqb_refl x : Reqb x x = true.
Proof. apply Reqb_true; reflexivity. Qed.

(* ---- constants ---- *)
Lemma eps_pos : 0 < eps.
Proof. unfold eps. apply Rinv_0_lt_compat. apply pow_lt; lra. Qed.
Lemma sqrt_eps_pos : 0 < sqrt_eps.
Proof. unfold sqrt_eps. apply Rinv_0_lt_compat. apply pow_lt; lra. Qed.
Lemma sqrt_eps_sq : sqrt_eps * sqrt_eps = eps.
Proof.
  unfold sqrt_eps, eps. rewrite <- Rinv_mult.
  rewrite <- pow_add. reflexivity.
Qed.
Lemma eps_small : eps < 1 / 1000000000000000.
Proof. unfold eps. apply Rmult_lt_reg_l with (2^52). apply pow_lt; lra. rewrite Rinv_r by (apply pow_nonzero; lra). simpl. lra. Qed.
Lemma sqrt_eps_small : sqrt_eps < 15 / 1000000000.
Proof. unfold sqrt_eps. apply Rmult_lt_reg_l with (2^26). apply pow_lt; lra. rewrite Rinv_r by (apply pow_nonzero; lra). simpl. lra. Qed.

Lemma PI_pos : 0 < PI. Proof. exact PI_RGT_0. Qed.
Lemma PI_lower : 3 < PI.
Proof. pose proof PI_ineq 0 as [h _]. unfold tg_alt, PI_tg in h. 
  pose proof PI_ineq 3 as [h3 _]. unfold tg_alt, PI_tg in h3. simpl in h3. 
  pose proof (PI_ineq 7) as [h7 _]. unfold tg_alt, PI_tg in h7. simpl in h7. lra. Qed.
Lemma PI_upper : PI <= 4.
Proof. exact PI_4. Qed.

(* ---- sums of squares ---- *)
Lemma sqr_sum_zero x y : x * x + y * y = 0 -> x = 0 /\ y = 0.
Proof. intros. split; nra. Qed.

Lemma Rabs_le_iff x y : Rabs x <= y <-> - y <= x <= y.
Proof. split. - intro. unfold Rabs in H. destruct (Rcase_abs x); lra. - intro. apply Rabs_le. lra. Qed.
Lemma Rabs_lt_iff x y : Rabs x < y <-> - y < x < y.
Proof. split. - intro. unfold Rabs in H. destruct (Rcase_abs x); lra. - intro. apply Rabs_def1; lra. Qed.

(* ---- angles ---- *)
Lemma sin_cos_1 t : sin t * sin t + cos t * cos t = 1.
Proof. pose proof (sin2_cos2 t). unfold Rsqr in H. exact H. Qed.

Lemma IZR_pos_INR p : IZR (Z.pos p) = INR (Pos.to_nat p).
Proof. rewrite INR_IZR_INZ, positive_nat_Z. reflexivity. Qed.
Lemma cos_period_Z t n : cos (t + 2 * PI * IZR n) = cos t.
Proof.
  destruct n as [|p|p].
  - f_equal. ring.
  - rewrite (IZR_pos_INR p).
    replace (t + 2 * PI * INR (Pos.to_nat p)) with (t + 2 * INR (Pos.to_nat p) * PI) by ring. apply cos_period.
  - change (Z.neg p) with (- Z.pos p)%Z. rewrite opp_IZR, (IZR_pos_INR p).
    rewrite <- (cos_period _ (Pos.to_nat p)). f_equal. ring.
Qed.
Lemma sin_period_Z t n : sin (t + 2 * PI * IZR n) = sin t.
Proof.
  rewrite <- !cos_shift. replace (PI / 2 - (t + 2 * PI * IZR n)) with ((PI/2 - t) + 2 * PI * IZR (- n)).
  apply cos_period_Z. rewrite opp_IZR. ring.
Qed.

Lemma ang_eq_refl a : ang_eq a a.
Proof. exists 0%Z. simpl. ring. Qed.
Lemma ang_eq_sym a b : ang_eq a b -> ang_eq b a.
Proof. intros [n H]. exists (- n)%Z. rewrite opp_IZR. lra. Qed.
Lemma ang_eq_trans a b c : ang_eq a b -> ang_eq b c -> ang_eq a c.
Proof. intros [n H] [m K]. exists (n + m)%Z. rewrite plus_IZR. lra. Qed.
Lemma ang_eq_add a b c d : ang_eq a b -> ang_eq c d -> ang_eq (a + c) (b + d).
Proof. intros [n H] [m K]. exists (n + m)%Z. rewrite plus_IZR. lra. Qed.
Lemma ang_eq_opp a b : ang_eq a b -> ang_eq (- a) (- b).
Proof. intros [n H]. exists (- n)%Z. rewrite opp_IZR. lra. Qed.
Lemma ang_eq_sub a b c d : ang_eq a b -> ang_eq c d -> ang_eq (a - c) (b - d).
Proof. intros. apply ang_eq_add; auto using ang_eq_opp. Qed.
Lemma ang_eq_cos a b : ang_eq a b -> cos a = cos b.
Proof. intros [n ->]. apply cos_period_Z. Qed.
Lemma ang_eq_sin a b : ang_eq a b -> sin a = sin b.
Proof. intros [n ->]. apply sin_period_Z. Qed.

Lemma floor_bounds x : IZR (Int_part x) <= x < IZR (Int_part x) + 1.
Proof. destruct (base_Int_part x). lra. Qed.

Lemma floor_unique x n : IZR n <= x < IZR n + 1 -> Int_part x = n.
Proof.
  intros [h1 h2]. pose proof (floor_bounds x) as [h3 h4].
  assert (n < Int_part x + 1)%Z by (apply lt_IZR; rewrite plus_IZR; lra).
  assert (Int_part x < n + 1)%Z by (apply lt_IZR; rewrite plus_IZR; lra).
  lia.
Qed.

(** Representative of an angle in (-pi, pi]. *)
Lemma ang_repr t : exists n : Z, - PI < t + 2 * PI * IZR n <= PI.
Proof.
  pose proof PI_pos.
  set (m := Int_part ((PI - t) / (2 * PI))).
  exists m. pose proof (floor_bounds ((PI - t) / (2 * PI))) as [h1 h2]. fold m in h1, h2.
  assert (E : (PI - t) / (2*PI) * (2 * PI) = PI - t) by (field; lra).
  assert (IZR m * (2*PI) <= PI - t) by (rewrite <- E; apply Rmult_le_compat_r; lra).
  assert (PI - t < (IZR m + 1) * (2 * PI)) by (rewrite <- E; apply Rmult_lt_compat_r; lra).
  lra.
Qed.

Lemma cos_eq_1_small t : - (2 * PI) < t < 2 * PI -> cos t = 1 -> t = 0.
Proof.
  intros Hr Hc.
  replace t with (2 * (t / 2)) in Hc by field. rewrite cos_2a_sin in Hc.
  assert (S : sin (t/2) = 0) by nra.
  destruct (Rtotal_order t 0) as [L|[L|L]]; auto.
  - pose proof (sin_gt_0 (- (t/2))). rewrite sin_neg in H. lra.
  - pose proof (sin_gt_0 (t/2)). lra.
Qed.

Lemma cos_sin_ang_eq a b : cos a = cos b -> sin a = sin b -> ang_eq a b.
Proof.
  intros Hc Hs.
  destruct (ang_repr (a - b)) as [n Hn].
  exists (- n)%Z.
  assert (H : cos (a - b + 2 * PI * IZR n) = 1).
  { rewrite cos_period_Z, cos_minus, Hc, Hs. pose proof (sin_cos_1 b). lra. }
  pose proof PI_pos.
  apply cos_eq_1_small in H; [|lra]. rewrite opp_IZR. lra.
Qed.

Lemma ang_eq_iff a b : ang_eq a b <-> cos a = cos b /\ sin a = sin b.
Proof.
  split. - intro; split; [apply ang_eq_cos|apply ang_eq_sin]; auto.
  - intros []. apply cos_sin_ang_eq; auto.
Qed.

Lemma ang_eq_small a b : ang_eq a b -> - PI < a <= PI -> - PI < b <= PI -> a = b.
Proof.
  intros H Ha Hb. pose proof PI_pos.
  assert (a - b = 0).
  { apply cos_eq_1_small. lra. rewrite cos_minus, (ang_eq_cos _ _ H), (ang_eq_sin _ _ H).
    pose proof (sin_cos_1 b). lra. }
  lra.
Qed.

(* ---- atan2 ---- *)
Lemma sqrt_pos_ne x : 0 < x -> sqrt x <> 0.
Proof. intros h e. pose proof (sqrt_lt_R0 x h). lra. Qed.

Lemma cos_atan_pos y x : 0 < x -> sqrt (x*x + y*y) * cos (atan (y/x)) = x.
Proof.
  intros Hx. rewrite cos_atan.
  assert (E : 1 + (y/x)² = (x*x+y*y) / (x*x)). { unfold Rsqr. field. lra. }
  rewrite E. rewrite sqrt_div_alt by nra. rewrite (sqrt_square x) by lra.
  assert (0 < sqrt (x*x+y*y)) by (apply sqrt_lt_R0; nra).
  field. split; lra.
Qed.
Lemma sin_atan_pos y x : 0 < x -> sqrt (x*x + y*y) * sin (atan (y/x)) = y.
Proof.
  intros Hx. rewrite sin_atan.
  assert (E : 1 + (y/x)² = (x*x+y*y) / (x*x)). { unfold Rsqr. field. lra. }
  rewrite E. rewrite sqrt_div_alt by nra. rewrite (sqrt_square x) by lra.
  assert (0 < sqrt (x*x+y*y)) by (apply sqrt_lt_R0; nra).
  field. split; lra.
Qed.

Lemma atan2_cos y x : sqrt (x*x + y*y) * cos (atan2 y x) = x.
Proof.
  unfold atan2. rcases.
  - apply cos_atan_pos; lra.
  - rewrite neg_cos. replace (y/x) with ((-y)/(-x)) by (field; lra).
    pose proof (cos_atan_pos (-y) (-x)). replace (-x * -x + -y * -y) with (x*x+y*y) in H by ring. lra.
  - unfold Rminus. rewrite <- (cos_period _ 1). simpl INR.
    replace (atan (y/x) + - PI + 2 * 1 * PI) with (atan (y/x) + PI) by ring.
    rewrite neg_cos. replace (y/x) with ((-y)/(-x)) by (field; lra).
    pose proof (cos_atan_pos (-y) (-x)). replace (-x * -x + -y * -y) with (x*x+y*y) in H by ring. lra.
  - rewrite cos_PI2. lra.
  - rewrite cos_neg, cos_PI2. lra.
  - replace x with 0 by lra. replace y with 0 by lra. replace (0*0+0*0) with 0 by ring. rewrite sqrt_0. ring.
Qed.
Lemma atan2_sin y x : sqrt (x*x + y*y) * sin (atan2 y x) = y.
Proof.
  unfold atan2. rcases.
  - apply sin_atan_pos; lra.
  - rewrite neg_sin. replace (y/x) with ((-y)/(-x)) by (field; lra).
    pose proof (sin_atan_pos (-y) (-x)). replace (-x * -x + -y * -y) with (x*x+y*y) in H by ring. lra.
  - unfold Rminus. rewrite <- (sin_period _ 1). simpl INR.
    replace (atan (y/x) + - PI + 2 * 1 * PI) with (atan (y/x) + PI) by ring.
    rewrite neg_sin. replace (y/x) with ((-y)/(-x)) by (field; lra).
    pose proof (sin_atan_pos (-y) (-x)). replace (-x * -x + -y * -y) with (x*x+y*y) in H by ring. lra.
  - rewrite sin_PI2. replace x with 0 by lra. replace (0*0+y*y) with (y*y) by ring. rewrite sqrt_square; lra.
  - rewrite sin_neg, sin_PI2. replace x with 0 by lra. replace (0*0+y*y) with (-y*-y) by ring. rewrite sqrt_square; lra.
  - replace x with 0 by lra. replace y with 0 by lra. replace (0*0+0*0) with 0 by ring. rewrite sqrt_0. ring.
Qed.

Lemma atan2_range y x : - PI < atan2 y x <= PI.
Proof.
  pose proof PI_pos. pose proof (atan_bound (y/x)).
  unfold atan2. rcases; try lra.
  - (* x < 0, 0 <= y : y/x <= 0 *)
    assert (y / x <= 0). { apply Rmult_le_reg_r with (-x). lra. unfold Rdiv. rewrite Rmult_assoc. replace (/x * -x) with (-1) by (field; lra). lra. }
    assert (atan (y/x) <= 0).
    { destruct (Req_dec (y/x) 0) as [->|]. rewrite atan_0; lra. rewrite <- atan_0. left. apply atan_increasing. lra. }
    lra.
  - assert (0 < y / x). { replace (y/x) with ((-y) / (-x)) by (field; lra). apply Rdiv_lt_0_compat; lra. }
    assert (0 < atan (y/x)). { rewrite <- atan_0. apply atan_increasing. lra. }
    lra.
Qed.

Lemma atan2_polar r t : 0 < r -> - PI < t <= PI -> atan2 (r * sin t) (r * cos t) = t.
Proof.
  intros Hr Ht.
  assert (E : sqrt (r * cos t * (r * cos t) + r * sin t * (r * sin t)) = r).
  { replace (r * cos t * (r * cos t) + r * sin t * (r * sin t)) with (r * r * (sin t * sin t + cos t * cos t)) by ring.
    rewrite sin_cos_1, Rmult_1_r. apply sqrt_square. lra. }
  pose proof (atan2_cos (r * sin t) (r * cos t)) as Hc. pose proof (atan2_sin (r * sin t) (r * cos t)) as Hs.
  rewrite E in Hc, Hs.
  apply ang_eq_small; auto using atan2_range.
  apply cos_sin_ang_eq; apply Rmult_eq_reg_l with r; lra.
Qed.

Lemma atan2_unit s c : s * s + c * c = 1 -> cos (atan2 s c) = c /\ sin (atan2 s c) = s.
Proof.
  intros H. pose proof (atan2_cos s c). pose proof (atan2_sin s c).
  replace (c*c+s*s) with 1 in * by lra. rewrite sqrt_1 in *. lra.
Qed.

Lemma unit_circle_angle s c : s * s + c * c = 1 -> exists t, cos t = c /\ sin t = s.
Proof. intros H. exists (atan2 s c). apply atan2_unit; auto. Qed.

Lemma atan2_zero : atan2 0 0 = 0.
Proof. unfold atan2. rcases; lra. Qed.

Lemma atan2_pos_sin_nonneg s c : 0 <= s -> 0 <= atan2 s c.
Proof.
  intros. pose proof (atan2_sin s c). pose proof (atan2_range s c).
  destruct (Rle_dec 0 (atan2 s c)); auto.
  destruct (Req_dec (s*s+c*c) 0) as [Z|Z].
  - apply sqr_sum_zero in Z as [-> ->]. rewrite atan2_zero. lra.
  - assert (0 < sqrt (c*c+s*s)). { apply sqrt_lt_R0. nra. }
    assert (sin (atan2 s c) < 0). { rewrite <- (Ropp_involutive (atan2 s c)). rewrite sin_neg. pose proof (sin_gt_0 (- atan2 s c)). lra. }
    nra.
Qed.

(* half angle facts *)
Lemma sin_half_sq t : 2 * (sin (t/2) * sin (t/2)) = 1 - cos t.
Proof. replace t with (2 * (t/2)) at 3 by field. rewrite cos_2a_sin. ring. Qed.
Lemma cos_half_sq t : 2 * (cos (t/2) * cos (t/2)) = 1 + cos t.
Proof. replace t with (2 * (t/2)) at 3 by field. rewrite cos_2a_cos. ring. Qed.
Lemma sin_cos_half t : 2 * (sin (t/2) * cos (t/2)) = sin t.
Proof. replace t with (2 * (t/2)) at 3 by field. rewrite sin_2a. ring. Qed.

(** Solutions of c cos t + s sin t = d on a circle of radius r. *)
Lemma cos_eq_pm a b : cos a = cos b -> ang_eq a b \/ ang_eq a (- b).
Proof.
  intros H.
  assert (S : (sin a - sin b) * (sin a + sin b) = 0).
  { pose proof (sin_cos_1 a). pose proof (sin_cos_1 b). rewrite H in H0. nra. }
  apply Rmult_integral in S as [S|S].
  - left. apply cos_sin_ang_eq; lra.
  - right. apply cos_sin_ang_eq; rewrite ?cos_neg, ?sin_neg; lra.
Qed.
Lemma sin_eq_pm a b : sin a = sin b -> ang_eq a b \/ ang_eq a (PI - b).
Proof.
  intros H. rewrite <- cos_shift, <- (cos_shift b) in H. apply cos_eq_pm in H as [H|H].
  - left. apply ang_eq_opp in H. apply (ang_eq_add _ _ (PI/2) (PI/2)) in H; [|apply ang_eq_refl].
    replace (- (PI/2 - a) + PI/2) with a in H by ring. replace (- (PI/2 - b) + PI/2) with b in H by ring. auto.
  - right. apply ang_eq_opp in H. apply (ang_eq_add _ _ (PI/2) (PI/2)) in H; [|apply ang_eq_refl].
    replace (- (PI/2 - a) + PI/2) with a in H by ring. replace (- - (PI/2 - b) + PI/2) with (PI - b) in H by lra. auto.
Qed.
Lemma acos_cos_range t : 0 <= t <= PI -> acos (cos t) = t.
Proof. apply acos_cos. Qed.

Lemma Rabs_cos_le t : -1 <= cos t <= 1.
Proof. apply COS_bound. Qed.
Lemma Rabs_sin_le t : -1 <= sin t <= 1.
Proof. apply SIN_bound. Qed.
