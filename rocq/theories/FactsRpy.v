(** Errors of rotations about the coordinate axes, of their products and of directions in the plane. *)
From Coq Require Import Reals ZArith List Bool Lra Lia Psatz.
From Flocq Require Import Core.Core IEEE754.BinarySingleNaN.
From Verif Require Import LinAlg RealAux Py FactsReal ModelRot SpecRot FactsLinAlg FactsRot FactsRot2 FactsAngle ModelFloat ModelFloat6 SpecRound FactsB64 FactsExact FactsTrack FactsSumsq
  SpecArc SpecArc2 PropNorm PropSlerp PropElbow FactsNear PropPi PropAngle PropR2rot SpecRpy.
Import ListNotations.
Open Scope R_scope.
Local Notation near := SpecArc2.near.

(* ---- angles ---- *)
Lemma same_refl e t : 0 <= e -> same_angle e t t.
Proof. intros H. exists 0%Z. replace (t - t - 2 * PI * IZR 0) with 0 by ring. rewrite Rabs_R0. exact H. Qed.
Lemma same_weak e e' t u : e <= e' -> same_angle e t u -> same_angle e' t u.
Proof. intros H [k K]. exists k. lra. Qed.
Lemma same_trans e f t u v : same_angle e t u -> same_angle f u v -> same_angle (e + f) t v.
Proof.
  intros [k K] [l M]. exists (k + l)%Z. rewrite plus_IZR.
  replace (t - v - 2 * PI * (IZR k + IZR l)) with ((t - u - 2 * PI * IZR k) + (u - v - 2 * PI * IZR l)) by ring. eapply Rle_trans; [apply Rabs_triang|]. lra.
Qed.
Lemma turns x k : sin (x - 2 * PI * IZR k) = sin x /\ cos (x - 2 * PI * IZR k) = cos x.
Proof.
  assert (G : forall n y, sin (y + 2 * INR n * PI) = sin y /\ cos (y + 2 * INR n * PI) = cos y) by (intros n y; split; [apply sin_period | apply cos_period]).
  destruct (Z.le_ge_cases 0 k) as [H|H].
  - destruct (G (Z.to_nat k) (x - 2 * PI * IZR k)) as [S C]. rewrite INR_IZR_INZ, Z2Nat.id in S, C by lia.
    replace (x - 2 * PI * IZR k + 2 * IZR k * PI) with x in S, C by ring. rewrite <- S, <- C. split; reflexivity.
  - destruct (G (Z.to_nat (- k)) x) as [S C]. rewrite INR_IZR_INZ, Z2Nat.id, opp_IZR in S, C by lia.
    replace (x + 2 * - IZR k * PI) with (x - 2 * PI * IZR k) in S, C by ring. split; assumption.
Qed.
Lemma same_sincos e t u : same_angle e t u -> Rabs (sin t - sin u) <= e /\ Rabs (cos t - cos u) <= e.
Proof.
  intros [k K]. destruct (turns t k) as [S C]. rewrite <- S, <- C.
  replace (t - u - 2 * PI * IZR k) with (t - 2 * PI * IZR k - u) in K by ring.
  split; (eapply Rle_trans; [|exact K]); [apply sin_lip | apply cos_lip].
Qed.
(** every angle has a representative in half a turn about 0 *)
Lemma reduce x : exists k : Z, - PI <= x - 2 * PI * IZR k <= PI.
Proof.
  pose proof PI_RGT_0 as P. set (z := x / (2 * PI) + / 2). exists (Int_part z).
  destruct (base_Int_part z) as [B1 B2]. set (n := IZR (Int_part z)) in *.
  assert (E : x = 2 * PI * (z - / 2)) by (unfold z; field; lra). rewrite E.
  replace (2 * PI * (z - / 2) - 2 * PI * n) with (2 * PI * (z - n - / 2)) by ring. split; nra.
Qed.
Lemma sincos_same e t u : 0 <= e <= 1 / 10 -> Rabs (sin t - sin u) <= e -> Rabs (cos t - cos u) <= e -> same_angle (18 / 10 * e) t u.
Proof.
  intros He Es Ec. destruct (reduce (t - u)) as [k K]. exists k. set (d := t - u - 2 * PI * IZR k) in *. pose proof pi_hi as PH.
  assert (SQ : forall x, Rabs x <= e -> x * x <= e * e). { intros x H. apply Rabs_le_inv in H. nra. }
  assert (C : 1 - cos d <= e * e).
  { unfold d. rewrite (proj2 (turns (t - u) k)), cos_minus. pose proof (SQ _ Es). pose proof (SQ _ Ec). pose proof (sin2_cos2 t) as T. pose proof (sin2_cos2 u) as U. unfold Rsqr in *. nra. }
  set (a := Rabs d). assert (D0 : 0 <= a <= PI) by (unfold a; split; [apply Rabs_pos | apply Rabs_le; lra]).
  assert (CD : cos d = cos a) by (unfold a, Rabs; destruct (Rcase_abs _); [rewrite cos_neg|]; reflexivity).
  rewrite CD in C. replace a with (2 * (a / 2)) in C by field. rewrite cos_2a_sin in C.
  assert (S0 : 0 <= sin (a / 2)) by (apply sin_ge_0; lra).
  assert (S1 : sin (a / 2) <= 708 / 1000 * e) by nra.
  pose proof (sin_lb2 (a / 2) ltac:(lra)) as L2. pose proof (sin_lb3 (a / 2) ltac:(lra)) as L3. lra.
Qed.
(** the direction of a point close to c (cos t, sin t) *)
Lemma dir_close L w e c t x y : libm_angle_ok L w -> 0 < c -> 0 <= e -> 1024 * e <= c -> near e x (c * cos t) -> near e y (c * sin t) ->
  bfin (m_atan2 L y x) /\ same_angle (58 / 10 * (e / c) + w) (bval (m_atan2 L y x)) t.
Proof.
  intros HL C0 E0 EC [Fx Ex] [Fy Ey]. pose proof (sin2_cos2 t) as SC. unfold Rsqr in SC. set (q := e / c).
  assert (Eq : e = q * c) by (unfold q; field; lra). assert (Q0 : 0 <= q) by (unfold q; apply Rmult_le_pos; [lra | left; apply Rinv_0_lt_compat; exact C0]).
  assert (Q1 : q <= 1 / 1000). { apply Rmult_le_reg_r with c; [exact C0|]. rewrite <- Eq. lra. }
  set (X := bval x) in *. set (Y := bval y) in *.
  assert (D : forall v v', Rabs (v - c * v') <= e -> Rabs (v / c - v') <= q).
  { intros v v' H. replace (v / c - v') with ((v - c * v') / c) by (field; lra). unfold Rdiv at 1. rewrite Rabs_mult, (Rabs_right (/ c)) by (left; apply Rinv_0_lt_compat; exact C0).
    unfold q. apply Rmult_le_compat_r; [left; apply Rinv_0_lt_compat; exact C0 | exact H]. }
  destruct (circle_close (cos t) (sin t) (X / c) (Y / c) q ltac:(lra) ltac:(lra) (D _ _ Ex) (D _ _ Ey)) as (R0 & Cx & Cy). set (r := sqrt (X / c * (X / c) + Y / c * (Y / c))) in *.
  assert (RR : r * r = X / c * (X / c) + Y / c * (Y / c)). { apply sqrt_sqrt. pose proof (Rle_0_sqr (X / c)). pose proof (Rle_0_sqr (Y / c)). unfold Rsqr in *. lra. }
  assert (SS : X * X + Y * Y = (r * c) * (r * c)). { transitivity (r * r * (c * c)); [rewrite RR; field; lra | ring]. }
  assert (RC : 0 < r * c) by (apply Rmult_lt_0_compat; assumption).
  assert (SQ : sqrt (X * X + Y * Y) = r * c) by (rewrite SS; apply sqrt_square; lra).
  destruct (HL y x Fy Fx) as (F & t' & _ & Ew & Hx & Hy); [fold X Y; rewrite SS; apply Rmult_lt_0_compat; exact RC|]. split; [exact F|].
  fold X Y in Hx, Hy. rewrite SQ in Hx, Hy.
  assert (ex : X / c / r = cos t') by (rewrite Hx; field; lra). assert (ey : Y / c / r = sin t') by (rewrite Hy; field; lra). rewrite ex in Cx. rewrite ey in Cy.
  assert (S : same_angle (18 / 10 * (32 / 10 * q)) t' t) by (apply sincos_same; [lra | exact Cy | exact Cx]).
  assert (W : same_angle w (bval (m_atan2 L y x)) t') by (exists 0%Z; replace (bval (m_atan2 L y x) - t' - 2 * PI * IZR 0) with (bval (m_atan2 L y x) - t') by ring; exact Ew).
  eapply same_weak; [|eapply same_trans; [exact W | exact S]]. lra.
Qed.

(* ---- length of two entries ---- *)
Lemma dot_sq2 dot x y : In dot b_dots -> small x -> small y ->
  bfin (dot [x; y] [x; y]) /\ 0 <= bval (dot [x; y] [x; y]) /\ Rabs (bval (dot [x; y] [x; y]) - sumsq [x; y]) <= 6 * uu * sumsq [x; y] + 8 * ee.
Proof.
  intros HD Sx Sy.
  assert (Z : bfin b_zero /\ 0 <= bval b_zero /\ Rabs (bval b_zero - 0) <= INR 0 * (3 * uu * 0 + 4 * ee)).
  { split; [reflexivity|]. assert (bval b_zero = 0) as -> by reflexivity. split; [lra|]. rewrite Rminus_0_r, Rabs_R0. change (INR 0) with 0. lra. }
  destruct Z as (Z1 & Z2 & Z3).
  assert (G : forall f a b, step_ok f -> small a -> small b -> let r := fold_left f [(a, a); (b, b)] b_zero in
    bfin r /\ 0 <= bval r /\ Rabs (bval r - sumsq [a; b]) <= 6 * uu * sumsq [a; b] + 8 * ee).
  { intros f a b HF Sa Sb r. destruct (fold_ok f HF [a; b] b_zero 0 0 (Forall_cons _ Sa (Forall_cons _ Sb (Forall_nil _))) Z1 Z2 ltac:(cbn; lra) ltac:(cbn; lia) Z3) as (F & P & E).
    split; [exact F|]. split; [exact P|]. rewrite Rplus_0_l in E. cbn [Nat.add length] in E. change (INR 2) with (1 + 1) in E. unfold r. cbn [map] in E. eapply Rle_trans; [exact E|]. lra. }
  assert (C : sumsq [x; y] = sumsq [y; x]) by (unfold sumsq; cbn [fold_right]; ring).
  repeat (destruct HD as [<- | HD]); [| | | | | | destruct HD].
  - exact (G _ x y step_seq Sx Sy).
  - exact (G _ x y step_fma Sx Sy).
  - rewrite C. exact (G _ y x step_seq Sy Sx).
  - rewrite C. exact (G _ y x step_fma Sy Sx).
  - exact (G _ x y step_seq Sx Sy).
  - exact (G _ x y step_seq Sx Sy).
Qed.
Lemma len2 dot x y : In dot b_dots -> small x -> small y -> let S := bval x * bval x + bval y * bval y in
  bpow radix2 (-200) <= S -> near (6 * uu * sqrt S) (b_sqrt (dot [x; y] [x; y])) (sqrt S).
Proof.
  intros HD Sx Sy S HB. destruct (dot_sq2 dot x y HD Sx Sy) as (F & P & E).
  assert (ES : sumsq [x; y] = S) by (unfold sumsq, S; cbn [fold_right]; ring). rewrite ES in E. set (v := bval (dot [x; y] [x; y])) in *.
  pose proof uu_pos as U. pose proof uu_small as US. pose proof ee_pos as EP. pose proof (bpow_gt_0 radix2 (-200)) as B0. assert (S0 : 0 < S) by lra.
  assert (EE : 8 * ee <= 1 / 100 * (uu * S)).
  { apply Rle_trans with (1 / 100 * (uu * bpow radix2 (-200))); [|apply Rmult_le_compat_l; [lra|]; apply Rmult_le_compat_l; lra].
    unfold ee, uu. rewrite <- bpow_plus. apply Rle_trans with (bpow radix2 13 * bpow radix2 (-1075)); [apply Rmult_le_compat_r; [apply bpow_ge_0 | change (bpow radix2 13) with 8192; lra]|].
    rewrite <- bpow_plus. apply Rle_trans with (bpow radix2 (-7) * bpow radix2 (-53 + -200)); [rewrite <- bpow_plus; apply bpow_le; lia|]. apply Rmult_le_compat_r; [apply bpow_ge_0 | cbn; lra]. }
  assert (SS : 0 < sqrt S) by (apply sqrt_lt_R0; exact S0). assert (S2 : sqrt S * sqrt S = S) by (apply sqrt_sqrt; lra).
  assert (V0 : (1 - 601 / 100 * uu) * S <= v) by (apply Rabs_le_inv in E; lra).
  assert (SL : 99 / 100 * sqrt S <= sqrt v).
  { assert (H : sqrt (99 / 100 * (99 / 100) * S) <= sqrt v). { apply sqrt_le_1_alt. eapply Rle_trans; [|exact V0]. apply Rmult_le_compat_r; lra. }
    rewrite sqrt_mult in H by lra. rewrite sqrt_square in H by lra. exact H. }
  assert (D : Rabs (sqrt v - sqrt S) <= 4 * uu * sqrt S).
  { apply Rmult_le_reg_r with (199 / 100 * sqrt S); [lra|]. replace (4 * uu * sqrt S * (199 / 100 * sqrt S)) with (796 / 100 * uu * (sqrt S * sqrt S)) by field. rewrite S2.
    apply Rle_trans with (Rabs (v - S)); [|assert (0 <= uu * S) by (apply Rmult_le_pos; lra); lra].
    replace (v - S) with ((sqrt v - sqrt S) * (sqrt v + sqrt S)) by (transitivity (sqrt v * sqrt v - sqrt S * sqrt S); [ring|]; rewrite (sqrt_sqrt v) by exact P; rewrite S2; reflexivity).
    rewrite Rabs_mult. apply Rmult_le_compat_l; [apply Rabs_pos|]. rewrite Rabs_right; lra. }
  destruct (sqrt_range0 _ F P) as [FR VR]. split; [exact FR|]. fold v in VR. rewrite VR.
  pose proof (rnd_err (sqrt v)) as RE. rewrite (Rabs_right (sqrt v)) in RE by (apply Rle_ge, sqrt_pos).
  assert (SY2 : sqrt v <= 101 / 100 * sqrt S) by (apply Rabs_le_inv in D; assert (4 * uu * sqrt S <= 1 / 100 * sqrt S) by (apply Rmult_le_compat_r; lra); lra).
  assert (USY : uu * sqrt v <= uu * (101 / 100 * sqrt S)) by (apply Rmult_le_compat_l; lra).
  assert (E2 : ee <= 1 / 100 * (uu * sqrt S)).
  { assert (Q : bpow radix2 (-100) <= sqrt S).
    { apply Rsqr_incr_0_var; [|apply sqrt_pos]. unfold Rsqr. rewrite S2, <- bpow_plus. exact HB. }
    apply Rle_trans with (1 / 100 * (uu * bpow radix2 (-100))); [|apply Rmult_le_compat_l; [lra|]; apply Rmult_le_compat_l; lra].
    unfold ee, uu. rewrite <- bpow_plus. apply Rle_trans with (bpow radix2 (-7) * bpow radix2 (-53 + -100)); [rewrite <- bpow_plus; apply bpow_le; lia|]. apply Rmult_le_compat_r; [apply bpow_ge_0 | cbn; lra]. }
  replace (rnd (sqrt v) - sqrt S) with ((rnd (sqrt v) - sqrt v) + (sqrt v - sqrt S)) by ring. eapply Rle_trans; [apply Rabs_triang|]. lra.
Qed.
(** the distance between two points bounds that of their lengths *)
Lemma len_close a b x y e : Rabs (x - a) <= e -> Rabs (y - b) <= e -> Rabs (sqrt (x * x + y * y) - sqrt (a * a + b * b)) <= 15 / 10 * e.
Proof.
  intros Ex Ey. assert (E0 : 0 <= e) by (pose proof (Rabs_pos (x - a)); lra).
  assert (T : forall p q r s, sqrt (p * p + q * q) <= sqrt (r * r + s * s) + sqrt ((p - r) * (p - r) + (q - s) * (q - s))).
  { intros p q r s. set (A := sqrt (r * r + s * s)). set (B := sqrt ((p - r) * (p - r) + (q - s) * (q - s))).
    pose proof (Rle_0_sqr r) as H1. pose proof (Rle_0_sqr s) as H2. pose proof (Rle_0_sqr (p - r)) as H3. pose proof (Rle_0_sqr (q - s)) as H4. unfold Rsqr in H1, H2, H3, H4.
    assert (A0 : 0 <= A) by apply sqrt_pos. assert (B0 : 0 <= B) by apply sqrt_pos. assert (AA : A * A = r * r + s * s) by (apply sqrt_sqrt; lra). assert (BB : B * B = (p - r) * (p - r) + (q - s) * (q - s)) by (apply sqrt_sqrt; lra).
    rewrite <- (sqrt_square (A + B)) by lra. apply sqrt_le_1_alt.
    assert (CS : r * (p - r) + s * (q - s) <= A * B).
    { apply Rsqr_incr_0_var; [|apply Rmult_le_pos; assumption]. unfold Rsqr.
      replace (A * B * (A * B)) with ((A * A) * (B * B)) by ring. rewrite AA, BB. pose proof (Rle_0_sqr (r * (q - s) - s * (p - r))) as K. unfold Rsqr in K. lra. }
    replace ((A + B) * (A + B)) with (A * A + B * B + 2 * (A * B)) by ring. rewrite AA, BB. lra. }
  assert (L : sqrt ((x - a) * (x - a) + (y - b) * (y - b)) <= 15 / 10 * e).
  { rewrite <- (sqrt_square (15 / 10 * e)) by lra. apply sqrt_le_1_alt. apply Rabs_le_inv in Ex. apply Rabs_le_inv in Ey. assert ((x - a) * (x - a) <= e * e) by nra. assert ((y - b) * (y - b) <= e * e) by nra. pose proof (Rmult_le_pos _ _ E0 E0). lra. }
  pose proof (T x y a b) as T1. pose proof (T a b x y) as T2. replace ((a - x) * (a - x) + (b - y) * (b - y)) with ((x - a) * (x - a) + (y - b) * (y - b)) in T2 by ring.
  apply Rabs_le. lra.
Qed.

(* ---- products of stored rotations ---- *)
Lemma row_sum a b c : a * a + b * b + c * c = 1 -> Rabs a + Rabs b + Rabs c <= 174 / 100.
Proof.
  intros H. assert (S : forall x, Rabs x * Rabs x = x * x) by (intros x; rewrite <- Rabs_mult; apply Rabs_right; pose proof (Rle_0_sqr x); unfold Rsqr in *; lra).
  pose proof (S a) as A. pose proof (S b) as B. pose proof (S c) as C. pose proof (Rabs_pos a). pose proof (Rabs_pos b). pose proof (Rabs_pos c). set (p := Rabs a) in *. set (q := Rabs b) in *. set (r := Rabs c) in *.
  apply Rsqr_incr_0_var; [|lra]. unfold Rsqr. pose proof (Rle_0_sqr (p - q)). pose proof (Rle_0_sqr (p - r)). pose proof (Rle_0_sqr (q - r)). unfold Rsqr in *. nra.
Qed.
Lemma row_dot a b c x y z : a * a + b * b + c * c = 1 -> x * x + y * y + z * z = 1 -> Rabs (a * x) + Rabs (b * y) + Rabs (c * z) <= 1.
Proof.
  intros H K. assert (G : forall p q, Rabs (p * q) <= (p * p + q * q) / 2).
  { intros p q. apply Rabs_le. pose proof (Rle_0_sqr (p - q)). pose proof (Rle_0_sqr (p + q)). unfold Rsqr in *. lra. }
  pose proof (G a x). pose proof (G b y). pose proof (G c z). lra.
Qed.
Lemma stored_mm L dot e f M N P Q : In dot b_dots -> 0 <= e <= 1 / 100 -> 0 <= f <= 1 / 100 -> is_SO3 P -> is_SO3 Q -> stored_matrix e M P -> stored_matrix f N Q ->
  stored_matrix (2 * (e + f) + 9 * uu) (g_mm (b64_arith L dot) M N) (mmul P Q).
Proof.
  intros HD He Hf SP SQ HM HN. pose proof uu_pos as U. pose proof uu_small as US.
  pose proof (SO3_entries P SP) as (P00 & P01 & P02 & P10 & P11 & P12 & P20 & P21 & P22). pose proof (SO3_entries Q SQ) as (Q00 & Q01 & Q02 & Q10 & Q11 & Q12 & Q20 & Q21 & Q22).
  pose proof (SO3_eqs P SP) as (_ & (R0 & R1 & R2) & _). pose proof (SO3_eqs Q SQ) as ((C0 & C1 & C2) & _).
  destruct HM as ((M00 & M01 & M02) & (M10 & M11 & M12) & (M20 & M21 & M22)). destruct HN as ((N00 & N01 & N02) & (N10 & N11 & N12) & (N20 & N21 & N22)).
  assert (G : forall a b c x y z a' b' c' x' y' z', near e a a' -> near e b b' -> near e c c' -> near f x x' -> near f y y' -> near f z z' ->
    Rabs a' <= 1 -> Rabs b' <= 1 -> Rabs c' <= 1 -> Rabs x' <= 1 -> Rabs y' <= 1 -> Rabs z' <= 1 -> a' * a' + b' * b' + c' * c' = 1 -> x' * x' + y' * y' + z' * z' = 1 ->
    near (2 * (e + f) + 9 * uu) (dot [a; b; c] [x; y; z]) (a' * x' + b' * y' + c' * z')).
  { intros a b c x y z a' b' c' x' y' z' Na Nb Nc Nx Ny Nz Ba Bb Bc Bx By Bz R C. pose proof (row_sum _ _ _ R) as SR. pose proof (row_sum _ _ _ C) as SC. pose proof (row_dot _ _ _ _ _ _ R C) as SD.
    assert (EF : e * f <= 1 / 100 * e) by (rewrite (Rmult_comm (1 / 100)); apply Rmult_le_compat_l; lra).
    assert (E1 : e * (Rabs x' + Rabs y' + Rabs z') <= e * (174 / 100)) by (apply Rmult_le_compat_l; lra). assert (E2 : f * (Rabs a' + Rabs b' + Rabs c') <= f * (174 / 100)) by (apply Rmult_le_compat_l; lra).
    eapply FactsNear.near_weak; [|apply (near_dot3 dot e f (178 / 100 * (e + f)) (1 + 178 / 100 * (e + f))); try assumption; try lra].
    assert ((e + f) * uu <= (e + f) * (1 / 1000)) by (apply Rmult_le_compat_l; lra). lra. }
  unfold stored_matrix, g_mm, v3map, v3cols, mmul. cbn [w0 w1 w2 m00 m01 m02 m10 m11 m12 m20 m21 m22].
  (split; [|split]); (split; [|split]); (apply G; try assumption; lra).
Qed.

(* ---- rotations about the coordinate axes ---- *)
Lemma rot_shape (A : arith) a b c t : g_rot A (W3 a b c) t =
  let e i h u v w x y z := nadd A (nadd A i (nmul A (nsin A t) h)) (nmul A (nsub A (none1 A) (ncos A t)) (ndot A [u; v; w] [x; y; z])) in
  let o := none1 A in let n := nzero A in let a' := nneg A a in let b' := nneg A b in let c' := nneg A c in
  W3 (W3 (e o n n c' b n c b') (e n c' n c' b c' n a) (e n b n c' b b a' n))
     (W3 (e n c c n a' n c b') (e o n c n a' c' n a) (e n a' c n a' b a' n))
     (W3 (e n b' b' a n n c b') (e n a b' a n c' n a) (e o n b' a n b a' n)).
Proof. reflexivity. Qed.
Section Axis.
Context (L : libm) (bdot : list b64 -> list b64 -> b64) (HD : In bdot b_dots) (HL : libm_ok L (bpow radix2 (-52))).
Local Notation A := (b64_arith L bdot).
Lemma axis_entry t i h z i' h' z' : bfin (m_sin L t) -> bfin (m_cos L t) -> isv i i' -> isv h h' -> near (8 * uu) z z' -> Rabs i' <= 1 -> Rabs h' <= 1 -> Rabs z' <= 1 ->
  near (40 * uu) (b_add (b_add i (b_mul (m_sin L t) h)) (b_mul (b_sub (b_lit 1 1) (m_cos L t)) z)) (i' + sin (bval t) * h' + (1 - cos (bval t)) * z').
Proof.
  intros FS FC [Fi Vi] [Fh Vh] Nz Bi Bh Bz. pose proof uu_pos as U. pose proof uu_small as US.
  assert (W52 : bpow radix2 (-52) = 2 * uu) by (rewrite uu_val'; cbn; lra). destruct (proj1 HL t FS) as [FT ES]. destruct (proj2 HL t FC) as [_ EC]. rewrite W52 in ES, EC.
  pose proof (SIN_bound (bval t)) as SB. pose proof (COS_bound (bval t)) as CB. set (s := sin (bval t)) in *. set (c := cos (bval t)) in *.
  assert (S1 : Rabs s <= 1) by (apply Rabs_le; lra). assert (C1 : Rabs (1 - c) <= 2) by (apply Rabs_le; lra).
  assert (Ns : near (2 * uu) (m_sin L t) s) by (split; assumption). assert (Nc : near (2 * uu) (m_cos L t) c) by (split; assumption).
  assert (Nh : near 0 h h') by (apply near_exact; [lra | assumption..]). assert (Ni : near 0 i i') by (apply near_exact; [lra | assumption..]).
  destruct one_val as [F1 V1]. assert (N1 : near 0 (b_lit 1 1) 1) by (apply near_exact; [lra | assumption..]).
  assert (B : forall p q m n, Rabs p <= m -> Rabs q <= n -> 0 <= m -> Rabs (p * q) <= m * n) by (intros p q m n H1 H2 H3; rewrite Rabs_mult; apply Rmult_le_compat; try apply Rabs_pos; assumption).
  pose proof (B s h' 1 1 S1 Bh ltac:(lra)) as Bsh. pose proof (B (1 - c) z' 2 1 C1 Bz ltac:(lra)) as Bcz.
  assert (SH : near (31 / 10 * uu) (b_mul (m_sin L t) h) (s * h')).
  { assert (2 * uu * Rabs h' <= 2 * uu * 1) by (apply Rmult_le_compat_l; lra). eapply FactsNear.near_weak; [|apply (near_mul (2 * uu) 0 (1 + 2 * uu)); [exact Ns | exact Nh | lra | lra]]. assert (uu * uu <= uu * (1 / 1000)) by (apply Rmult_le_compat_l; lra). lra. }
  assert (IS : near (53 / 10 * uu) (b_add i (b_mul (m_sin L t) h)) (i' + s * h')).
  { eapply FactsNear.near_weak; [|apply (near_add 0 (31 / 10 * uu) (2 + 31 / 10 * uu)); [exact Ni | exact SH | pose proof (Rabs_triang i' (s * h')); lra | lra]]. assert (uu * uu <= uu * (1 / 1000)) by (apply Rmult_le_compat_l; lra). lra. }
  assert (OC : near (41 / 10 * uu) (b_sub (b_lit 1 1) (m_cos L t)) (1 - c)).
  { eapply FactsNear.near_weak; [|apply (near_sub 0 (2 * uu) (2 + 2 * uu)); [exact N1 | exact Nc | lra | lra]]. assert (uu * uu <= uu * (1 / 1000)) by (apply Rmult_le_compat_l; lra). lra. }
  assert (CZ : near (24 * uu) (b_mul (b_sub (b_lit 1 1) (m_cos L t)) z) ((1 - c) * z')).
  { assert (41 / 10 * uu * Rabs z' <= 41 / 10 * uu * 1) by (apply Rmult_le_compat_l; lra). assert (8 * uu * Rabs (1 - c) <= 8 * uu * 2) by (apply Rmult_le_compat_l; lra). assert (uu * uu <= uu * (1 / 1000)) by (apply Rmult_le_compat_l; lra).
    eapply FactsNear.near_weak; [|apply (near_mul (41 / 10 * uu) (8 * uu) (2 + 21 * uu)); [exact OC | exact Nz | lra | lra]]. lra. }
  eapply FactsNear.near_weak; [|apply (near_add (53 / 10 * uu) (24 * uu) (4 + 30 * uu)); [exact IS | exact CZ | | lra]].
  - assert (uu * uu <= uu * (1 / 1000)) by (apply Rmult_le_compat_l; lra). lra.
  - pose proof (Rabs_triang (i' + s * h') ((1 - c) * z')). pose proof (Rabs_triang i' (s * h')). lra.
Qed.
Lemma axis_rot t k k' : bfin (m_sin L t) -> bfin (m_cos L t) -> (k, k') = (g_ex A, V3 1 0 0) \/ (k, k') = (g_ey A, V3 0 1 0) \/ (k, k') = (g_ez A, V3 0 0 1) ->
  stored_matrix (40 * uu) (g_rot A k t) (rot k' (bval t)).
Proof.
  intros FS FC HK.
  assert (G : forall i h z i' h' z' v, isv i i' -> isv h h' -> near (8 * uu) z z' -> Rabs i' <= 1 -> Rabs h' <= 1 -> Rabs z' <= 1 -> i' + sin (bval t) * h' + (1 - cos (bval t)) * z' = v ->
    near (40 * uu) (nadd A (nadd A i (nmul A (nsin A t) h)) (nmul A (nsub A (none1 A) (ncos A t)) z)) v) by (intros; subst v; apply axis_entry; assumption).
  assert (A0 : Rabs 0 <= 1) by (rewrite Rabs_R0; lra). assert (A1 : Rabs 1 <= 1) by (rewrite Rabs_R1; lra). assert (A2 : Rabs (-1) <= 1) by (apply Rabs_le; lra).
  assert (Z : isv (nzero A) 0) by (split; [reflexivity | vm_compute; lra]). assert (O : isv (none1 A) 1) by exact one_val.
  assert (NZ : isv (nneg A (nzero A)) (- 0)) by (split; [reflexivity | vm_compute; lra]). assert (NO : isv (nneg A (none1 A)) (- (1))) by (split; [reflexivity | vm_compute; lra]).
  assert (C : forall x, In x [0; 1; - 0; - (1)] -> Rabs x <= 1) by (intros x [<- | [<- | [<- | [<- | []]]]]; apply Rabs_le; lra).
  assert (N : forall x v, isv x v -> near 0 x v) by (intros x v [F V]; apply near_exact; [lra | exact F | exact V]). pose proof uu_pos as U.
  assert (D : forall a b c x y z a' b' c' x' y' z', isv a a' -> isv b b' -> isv c c' -> isv x x' -> isv y y' -> isv z z' ->
    In a' [0; 1; - 0; - (1)] -> In b' [0; 1; - 0; - (1)] -> In c' [0; 1; - 0; - (1)] -> In x' [0; 1; - 0; - (1)] -> In y' [0; 1; - 0; - (1)] -> In z' [0; 1; - 0; - (1)] ->
    Rabs (a' * x') + Rabs (b' * y') + Rabs (c' * z') <= 1 -> near (8 * uu) (ndot A [a; b; c] [x; y; z]) (a' * x' + b' * y' + c' * z') /\ Rabs (a' * x' + b' * y' + c' * z') <= 1).
  { intros a b c x y z a' b' c' x' y' z' Ia Ib Ic Ix Iy Iz Ha Hb Hc Hx Hy Hz S. split.
    - cbn [ndot b64_arith]. eapply FactsNear.near_weak; [|apply (near_dot3 bdot 0 0 0 1); try lra; try (apply N; assumption); try exact HD; match goal with |- Rabs ?v <= 10 => apply Rle_trans with 1; [apply C; assumption | lra] end]. lra.
    - pose proof (Rabs_triang (a' * x' + b' * y') (c' * z')). pose proof (Rabs_triang (a' * x') (b' * y')). lra. }
  assert (M0 : forall x, Rabs (0 * x) = 0) by (intros; rewrite Rmult_0_l; apply Rabs_R0). assert (M0' : forall x, Rabs (- 0 * x) = 0) by (intros; rewrite Ropp_0, Rmult_0_l; apply Rabs_R0).
  assert (M1 : forall x, Rabs (x * 0) = 0) by (intros; rewrite Rmult_0_r; apply Rabs_R0). assert (M1' : forall x, Rabs (x * - 0) = 0) by (intros; rewrite Ropp_0, Rmult_0_r; apply Rabs_R0).
  assert (M2 : Rabs (1 * - (1)) = 1) by (rewrite Rmult_1_l, Rabs_Ropp; apply Rabs_R1). assert (M2' : Rabs (- (1) * 1) = 1) by (rewrite Rmult_1_r, Rabs_Ropp; apply Rabs_R1).
  assert (HR : forall ka kb kc, rot (V3 ka kb kc) (bval t) =
    let s := sin (bval t) in let c := 1 - cos (bval t) in
    M3 (1 + s * 0 + c * (0 * 0 + - kc * kc + kb * - kb)) (0 + s * - kc + c * (0 * - kc + - kc * 0 + kb * ka)) (0 + s * kb + c * (0 * kb + - kc * - ka + kb * 0))
       (0 + s * kc + c * (kc * 0 + 0 * kc + - ka * - kb)) (1 + s * 0 + c * (kc * - kc + 0 * 0 + - ka * ka)) (0 + s * - ka + c * (kc * kb + 0 * - ka + - ka * 0))
       (0 + s * - kb + c * (- kb * 0 + ka * kc + 0 * - kb)) (0 + s * ka + c * (- kb * - kc + ka * 0 + 0 * ka)) (1 + s * 0 + c * (- kb * kb + ka * - ka + 0 * 0))) by (intros; reflexivity).
  destruct HK as [E | [E | E]]; injection E as -> ->; unfold g_ex, g_ey, g_ez; rewrite rot_shape, HR; clear HR; cbv zeta; unfold stored_matrix; cbn [w0 w1 w2 m00 m01 m02 m10 m11 m12 m20 m21 m22];
  set (nz := nzero A) in *; set (no := none1 A) in *; clearbody nz no;
  (split; [|split]); (split; [|split]);
  match goal with |- near _ (nadd A _ (nmul A _ (ndot A [?a; ?b; ?c] [?x; ?y; ?z]))) (_ + _ * _ + _ * (?a' * ?x' + ?b' * ?y' + ?c' * ?z')) =>
    destruct (D a b c x y z a' b' c' x' y' z') as [DN DB]; try assumption; try (cbn [In]; auto 10); try (rewrite ?M0, ?M0', ?M1, ?M1', ?M2, ?M2'; lra);
    eapply G; [| | exact DN | | | exact DB | reflexivity]; try assumption; apply C; cbn [In]; auto 10
  end.
Qed.
End Axis.
