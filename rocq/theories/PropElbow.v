(** Property C82, what remains true: away from the ends of the reachable distances subproblem3
    decides correctly in binary64 whether there is a solution. *)
From Coq Require Import Reals ZArith List Bool Lra Lia Psatz.
From Flocq Require Import Core.Core IEEE754.BinarySingleNaN.
From Verif Require Import LinAlg RealAux Py FactsReal FactsLinAlg ModelRot SpecRot FactsRot FactsRot2 FactsNorm SpecSub FactsSub ModelRobot ModelFloat SpecRound FactsB64 FactsExact PropB64 PropNorm FactsTrack SpecArc FactsAngle.
Import ListNotations.
Open Scope R_scope.

Lemma stored_vtr M l v : stored M l v -> vtr 0 M l v.
Proof.
  intros (a & b & c & -> & Fa & Fb & Fc & -> & N). destruct (entry_le (V3 (bval a) (bval b) (bval c))) as (E1 & E2 & E3). cbn [vx vy vz] in *.
  apply vtr_entries; cbn [vx vy vz]; [apply tr_exact; [assumption | lra] | apply tr_exact; [assumption | lra] | apply tr_exact; [assumption | lra] | exact N].
Qed.
Lemma axis_vtr l k : stored_axis l k -> vtr 8 1 l k.
Proof.
  intros (U & a & b & c & -> & Fa & Fb & Fc & Ea & Eb & Ec). destruct (entry_le k) as (E1 & E2 & E3). pose proof (norm_unit k U) as NU.
  assert (P : bpow radix2 (-50) = 8 * (uu * 1)) by (rewrite uu_val'; cbn; lra). rewrite P in *.
  apply vtr_entries; [| | | lra]; (split; [assumption|]; split; [assumption | lra]).
Qed.
Lemma mod_rg M : moderate M -> rg 390 M. Proof. intros [H1 H2]. split; [eapply Rle_trans; [|exact H1] | eapply Rle_trans; [exact H2|]]; apply bpow_le; lia. Qed.

(* ---- quotients and 1 ---- *)
Lemma one_val : bfin (b_lit 1 1) /\ bval (b_lit 1 1) = 1. Proof. split; [reflexivity | vm_compute; lra]. Qed.
Lemma lt_abs x : bfin x -> (b_lt (b_lit 1 1) (Babs x) = true <-> 1 < Rabs (bval x)).
Proof.
  intros F. destruct one_val as [F1 V1]. assert (FA : bfin (Babs x)) by (unfold bfin; rewrite is_finite_Babs; exact F).
  pose proof (b_lt_val (b_lit 1 1) (Babs x) F1 FA) as E. assert (VA : bval (Babs x) = Rabs (bval x)) by (unfold bval; apply B2R_Babs). rewrite V1, VA in E. exact E.
Qed.
Lemma rnd_1 : rnd 1 = 1. Proof. apply rnd_exact. change 1 with (bpow radix2 0). apply fmt_pow. lia. Qed.
Lemma quot_le x y : bfin x -> 0 < bval y -> Rabs (bval x) <= bval y -> isv (b_div x y) (rnd (bval x / bval y)) /\ Rabs (bval x / bval y) <= 1 /\ b_lt (b_lit 1 1) (Babs (b_div x y)) = false.
Proof.
  intros F Y H.
  assert (Q : Rabs (bval x / bval y) <= 1).
  { unfold Rdiv. rewrite Rabs_mult, Rabs_inv, (Rabs_right (bval y)) by lra. apply Rmult_le_reg_r with (bval y); [exact Y|]. rewrite Rmult_assoc, Rinv_l, Rmult_1_r, Rmult_1_l by lra. exact H. }
  destruct (div_range x y F ltac:(lra)) as [FD VD]. { apply in_range. eapply Rle_trans; [exact Q|]. change 1 with (bpow radix2 0). apply bpow_le. lia. }
  split; [split; assumption|]. split; [exact Q|]. apply not_true_is_false. intros B. apply (lt_abs _ FD) in B. rewrite VD in B.
  assert (Rabs (rnd (bval x / bval y)) <= bpow radix2 0) by (apply rnd_abs_le; [lia | exact Q]). change (bpow radix2 0) with 1 in *. lra.
Qed.
Lemma next_fmt : b_fmt (1 + 2 * uu).
Proof.
  replace (1 + 2 * uu) with (bval (b_add (b_ofZ 1) (b_lit 1 (2 ^ 52)))); [apply fmt_bval|]. rewrite uu_val'. vm_compute. lra.
Qed.
Lemma quot_gt x y : bfin x -> bfin y -> 0 <= bval y -> bval y * (1 + 2 * uu) < Rabs (bval x) -> b_lt (b_lit 1 1) (Babs (b_div x y)) = true.
Proof.
  intros Fx Fy [Y | Y] H.
  - pose proof (Bdiv_correct 53 1024 prec64 emax64 mode_NE x y ltac:(unfold bval in Y; lra)) as C. cbv zeta in C.
    destruct (Rlt_bool _ _) eqn:RB in C.
    + destruct C as (V & F & _). fold (b_div x y) in V, F. fold (bval (b_div x y)) in V.
      assert (FD : bfin (b_div x y)) by (unfold bfin; rewrite F; exact Fx). apply (lt_abs _ FD). rewrite V. change (round _ _ _ _) with (rnd (bval x / bval y)).
      pose proof uu_pos as U.
      assert (Q : 1 + 2 * uu <= Rabs (bval x / bval y)).
      { unfold Rdiv. rewrite Rabs_mult, Rabs_inv, (Rabs_right (bval y)) by lra. apply Rmult_le_reg_r with (bval y); [exact Y|]. rewrite Rmult_assoc, Rinv_l, Rmult_1_r by lra. lra. }
      apply Rlt_le_trans with (1 + 2 * uu); [lra|]. rewrite <- (rnd_exact _ next_fmt). destruct (Rle_dec 0 (bval x / bval y)) as [P | P].
      * rewrite (Rabs_right (bval x / bval y)) in Q by lra. eapply Rle_trans; [apply rnd_le, Q | apply Rle_abs].
      * rewrite (Rabs_left (bval x / bval y)) in Q by lra. assert (rnd (bval x / bval y) <= rnd (- (1 + 2 * uu))) as W by (apply rnd_le; lra).
        assert (N : rnd (- (1 + 2 * uu)) = - (1 + 2 * uu)) by (apply rnd_exact, generic_format_opp, next_fmt). rewrite N in W. rewrite (rnd_exact _ next_fmt). rewrite Rabs_left by lra. lra.
    + fold (b_div x y) in C. cbn [binary_overflow overflow_to_inf] in C. destruct (b_div x y) as [? | s | | ? ? ? ?]; cbn [B2SF] in C; try discriminate C. reflexivity.
  - destruct y as [s | | |s m e B]; try discriminate.
    + destruct x as [s' | | |s' m' e' B']; try discriminate Fx.
      * unfold bval in H. cbn [B2R] in H. rewrite Rabs_R0 in H. lra.
      * reflexivity.
    + exfalso. unfold bval in Y. cbn [B2R] in Y. symmetry in Y. apply Flocq.Core.Float_prop.eq_0_F2R in Y. destruct s; discriminate.
Qed.

Section Elbow.
Context (L : libm) (bdot : list b64 -> list b64 -> b64) (HD : In bdot b_dots).
Context (p q k : list b64) (d : b64) (p0 q0 k0 : vec3) (M : R).
Context (HM : moderate M) (Hp : stored M p p0) (Hq : stored M q q0) (Hk : stored_axis k k0) (Fd : bfin d) (Bd : Rabs (bval d) <= M).
Local Notation A := (b64_arith L bdot).
Definition sp3_pp : list b64 := l_sub A p (l_scale A (bdot p k) k).
Definition sp3_qp : list b64 := l_sub A q (l_scale A (bdot q k) k).
Definition sp3_dpsq : b64 := let s := bdot k (l_add A p q) in b_sub (b_mul d d) (b_mul s s).
Definition sp3_num : b64 := Bopp (b_sub (b_add (bdot sp3_pp sp3_pp) (bdot sp3_qp sp3_qp)) sp3_dpsq).
Definition sp3_den : b64 := b_mul (b_mul (b_lit 2 1) (b_sqrt (bdot sp3_pp sp3_pp))) (b_sqrt (bdot sp3_qp sp3_qp)).
Definition base_sq : R := dot k0 (vadd p0 q0) * dot k0 (vadd p0 q0).

Lemma pp_tr : vtr 72 M sp3_pp (perp k0 p0).
Proof.
  apply (vtr_weak (5 * 0 + 5 * 8 + 32)); [lra | left; apply (rg_pos 390), mod_rg, HM|].
  apply (vtr_perp L bdot 0 8 M p k p0 k0 HD); [lra | lra | unfold cb; lra | apply mod_rg, HM | apply Hk | apply stored_vtr, Hp | apply axis_vtr, Hk].
Qed.
Lemma qp_tr : vtr 72 M sp3_qp (perp k0 q0).
Proof.
  apply (vtr_weak (5 * 0 + 5 * 8 + 32)); [lra | left; apply (rg_pos 390), mod_rg, HM|].
  apply (vtr_perp L bdot 0 8 M q k q0 k0 HD); [lra | lra | unfold cb; lra | apply mod_rg, HM | apply Hk | apply stored_vtr, Hq | apply axis_vtr, Hk].
Qed.
Lemma len_tr l v : vtr 72 M l v -> tr 160 M (b_sqrt (bdot l l)) (norm v) /\ 0 <= bval (b_sqrt (bdot l l)).
Proof.
  intros V. destruct (tr_norm bdot 72 M l v HD ltac:(unfold cb; lra) (mod_rg M HM) V) as [T P]. split; [|exact P].
  destruct V as (? & ? & ? & _ & _ & _ & _ & N). replace 160 with ((72 + 8) * 2) by lra.
  apply tr_mag with (m := 2 * M); [lra | lra | rewrite Rabs_right; [exact N | pose proof (norm_nonneg v); lra] | exact T].
Qed.
Lemma two_tr : tr 0 2 (b_lit 2 1) 2.
Proof. assert (V : bval (b_lit 2 1) = 2) by (vm_compute; lra). rewrite <- V at 2. apply tr_exact; [reflexivity|]. rewrite V, Rabs_right; lra. Qed.
Lemma dist_tr c m x v b : tr c m x v -> c * m <= b -> Rabs (bval x - v) <= b * uu.
Proof. intros (_ & E & _) H. eapply Rle_trans; [exact E|]. replace (c * (uu * m)) with (c * m * uu) by ring. apply Rmult_le_compat_r; [left; apply uu_pos | exact H]. Qed.

Lemma sp3_values :
  (bfin sp3_dpsq /\ Rabs (bval sp3_dpsq - (bval d * bval d - base_sq)) <= 500 * uu * (M * M)) /\
  (bfin sp3_num /\ Rabs (bval sp3_num - (bval d * bval d - base_sq - dot (perp k0 p0) (perp k0 p0) - dot (perp k0 q0) (perp k0 q0))) <= 1500 * uu * (M * M)) /\
  (bfin sp3_den /\ 0 <= bval sp3_den /\ Rabs (bval sp3_den - 2 * norm (perp k0 p0) * norm (perp k0 q0)) <= 700 * uu * (M * M)).
Proof.
  pose proof (mod_rg M HM) as RM. pose proof (rg_pos _ _ RM) as MP. assert (R1 : rg 390 1) by (apply rg_1; lia).
  assert (RMM : rg 780 (M * M)) by (apply (rg_mul 390 390); assumption). pose proof (rg_pos _ _ RMM) as MMP.
  assert (R2 : rg 390 (2 * M)). { destruct HM as [H1 H2]. split; [eapply Rle_trans with M; [eapply Rle_trans; [|exact H1]; apply bpow_le; lia | lra]|].
    apply Rle_trans with (2 * bpow radix2 380); [lra|]. change 2 with (bpow radix2 1) at 1. rewrite <- bpow_plus. apply bpow_le. lia. }
  pose proof pp_tr as PP. pose proof qp_tr as QP. pose proof (axis_vtr _ _ Hk) as K. pose proof (stored_vtr _ _ _ Hp) as P. pose proof (stored_vtr _ _ _ Hq) as Q.
  assert (R900 : forall c, 1 <= c <= 8 -> rg 900 (c * (M * M))) by (intros c Hc; apply (rg_weak 783); [lia|]; apply (rg_scale 780); assumption).
  (* the base *)
  assert (S : tr 55 (2 * M) (bdot k (l_add A p q)) (dot k0 (vadd p0 q0))).
  { pose proof (vtr_add L bdot 0 0 M p q p0 q0 ltac:(unfold cb; lra) ltac:(unfold cb; lra) RM P Q) as T.
    pose proof (vtr_dot bdot 8 ((0 + 0) / 2 + 2) 1 (2 * M) _ _ _ _ HD ltac:(unfold cb; lra) ltac:(unfold cb; lra) ltac:(unfold cb; lra) R1 R2 K T) as T2.
    rewrite Rmult_1_l in T2. eapply tr_weak; [|lra | exact T2]. lra. }
  assert (SS : tr 113 (4 * (M * M)) (b_mul (bdot k (l_add A p q)) (bdot k (l_add A p q))) base_sq).
  { replace (4 * (M * M)) with (2 * M * (2 * M)) by ring.
    pose proof (tr_mul 55 55 (2 * M) (2 * M) _ _ _ _ ltac:(unfold cb; lra) ltac:(unfold cb; lra) ltac:(unfold cb; lra) ltac:(replace (2 * M * (2 * M)) with (4 * (M * M)) by ring; apply R900; lra) S S) as T.
    eapply tr_weak; [| |exact T]; [lra | replace (2 * M * (2 * M)) with (4 * (M * M)) by ring; lra]. }
  assert (DT : tr 0 M d (bval d)) by (apply tr_exact; assumption).
  assert (DD : tr 2 (4 * (M * M)) (b_mul d d) (bval d * bval d)).
  { pose proof (tr_mul 0 0 M M _ _ _ _ ltac:(unfold cb; lra) ltac:(unfold cb; lra) ltac:(unfold cb; lra) ltac:(apply (rg_weak 780); [lia | exact RMM]) DT DT) as T.
    eapply (tr_weak ((1001 / 1000 * (0 + 0) + 2) * 1)); [lra | lra|]. apply tr_mag with (m := M * M); [lra | lra | | exact T]. destruct T as (_ & _ & T). lra. }
  assert (DP : tr 60 (8 * (M * M)) sp3_dpsq (bval d * bval d - base_sq)).
  { replace (8 * (M * M)) with (2 * (4 * (M * M))) by ring. unfold sp3_dpsq. cbv zeta.
    pose proof (tr_sub 2 113 (4 * (M * M)) _ _ _ _ ltac:(unfold cb; lra) ltac:(unfold cb; lra) ltac:(replace (2 * (4 * (M * M))) with (8 * (M * M)) by ring; apply R900; lra) DD SS) as T.
    eapply tr_weak; [|lra | exact T]. lra. }
  (* the orthogonal parts *)
  assert (PQ : forall l v, vtr 72 M l v -> tr 460 (M * M) (bdot l l) (dot v v)).
  { intros l v V. pose proof (vtr_dot bdot 72 72 M M _ _ _ _ HD ltac:(unfold cb; lra) ltac:(unfold cb; lra) ltac:(unfold cb; lra) RM RM V V) as T.
    eapply tr_weak; [|lra | exact T]. lra. }
  assert (SUM : tr 118 (8 * (M * M)) (b_add (bdot sp3_pp sp3_pp) (bdot sp3_qp sp3_qp)) (dot (perp k0 p0) (perp k0 p0) + dot (perp k0 q0) (perp k0 q0))).
  { pose proof (tr_add 460 460 (M * M) _ _ _ _ ltac:(unfold cb; lra) ltac:(unfold cb; lra) ltac:(apply R900; lra) (PQ _ _ PP) (PQ _ _ QP)) as T.
    eapply (tr_weak (((460 + 460) / 2 + 2) * (1 / 4))); [lra | lra|]. apply tr_mag with (m := 2 * (M * M)); [lra | lra | | exact T]. destruct T as (_ & _ & T). lra. }
  assert (NUM : tr 91 (16 * (M * M)) sp3_num (- (dot (perp k0 p0) (perp k0 p0) + dot (perp k0 q0) (perp k0 q0) - (bval d * bval d - base_sq)))).
  { unfold sp3_num. apply tr_opp. replace (16 * (M * M)) with (2 * (8 * (M * M))) by ring.
    pose proof (tr_sub 118 60 (8 * (M * M)) _ _ _ _ ltac:(unfold cb; lra) ltac:(unfold cb; lra)
      ltac:(replace (2 * (8 * (M * M))) with (2 * (8 * (M * M))) by ring; apply (rg_weak 786); [lia|]; apply (rg_scale 783); [apply (rg_scale 780); [exact RMM | lra] | lra]) SUM DP) as T.
    eapply tr_weak; [|lra | exact T]. lra. }
  destruct (len_tr _ _ PP) as [NP NP0]. destruct (len_tr _ _ QP) as [NQ NQ0].
  assert (RM2 : rg 900 (2 * M)) by (apply (rg_weak 390); [lia | exact R2]).
  pose proof (tr_mul 0 160 2 M _ _ _ _ ltac:(unfold cb; lra) ltac:(unfold cb; lra) ltac:(unfold cb; lra) RM2 two_tr NP) as T1.
  assert (R3 : rg 900 (2 * M * M)) by (rewrite Rmult_assoc; apply R900; lra).
  pose proof (tr_mul (1001 / 1000 * (0 + 160) + 2) 160 (2 * M) M _ _ _ _ ltac:(unfold cb; lra) ltac:(unfold cb; lra) ltac:(unfold cb; lra) R3 T1 NQ) as T2.
  change (b_mul (b_mul (b_lit 2 1) (b_sqrt (bdot sp3_pp sp3_pp))) (b_sqrt (bdot sp3_qp sp3_qp))) with sp3_den in T2.
  split; [|split].
  - split; [apply DP|]. replace (500 * uu * (M * M)) with (500 * (M * M) * uu) by ring. apply (dist_tr _ _ _ _ _ DP). lra.
  - split; [apply NUM|]. replace (1500 * uu * (M * M)) with (1500 * (M * M) * uu) by ring.
    replace (bval d * bval d - base_sq - dot (perp k0 p0) (perp k0 p0) - dot (perp k0 q0) (perp k0 q0))
      with (- (dot (perp k0 p0) (perp k0 p0) + dot (perp k0 q0) (perp k0 q0) - (bval d * bval d - base_sq))) by ring. apply (dist_tr _ _ _ _ _ NUM). lra.
  - split; [apply T2|]. split.
    + unfold sp3_den. pose proof (proj1 T2) as F. unfold sp3_den in F. rewrite (mul_val _ _ F). apply rnd_nonneg. destruct (mul_fin _ _ F) as [F1 _]. rewrite (mul_val _ _ F1).
      apply Rmult_le_pos; [apply rnd_nonneg, Rmult_le_pos; [|exact NP0] | exact NQ0]. destruct two_tr as (_ & E & _). rewrite Rmult_0_l in E.
      apply Rabs_le_inv in E. lra.
    + replace (700 * uu * (M * M)) with (700 * (M * M) * uu) by ring. apply (dist_tr _ _ _ _ _ T2). rewrite Rmult_assoc. 
      replace (2 * M * M) with (2 * (M * M)) by ring. lra.
Qed.

(** the distances in terms of the parts orthogonal to the axis *)
Lemma reach_form t : exists X, reach_sq k0 p0 q0 t = base_sq + (dot (perp k0 p0) (perp k0 p0) + dot (perp k0 q0) (perp k0 q0) + 2 * X) /\
  Rabs X <= norm (perp k0 p0) * norm (perp k0 q0).
Proof.
  destruct Hk as [U _]. exists (dot (mvec (rot k0 t) (perp k0 p0)) (perp k0 q0)). split.
  - unfold reach_sq. rewrite <- rot_rotate by exact U. rewrite sp3_dist by exact U. reflexivity.
  - rewrite <- (norm_SO3 (rot k0 t) (perp k0 p0)) by (apply rot_SO3; exact U). apply abs_dot_le.
Qed.
Lemma reach_ends : exists t t', reach_sq k0 p0 q0 t = base_sq + (dot (perp k0 p0) (perp k0 p0) + dot (perp k0 q0) (perp k0 q0) + 2 * norm (perp k0 p0) * norm (perp k0 q0)) /\
  reach_sq k0 p0 q0 t' = base_sq + (dot (perp k0 p0) (perp k0 p0) + dot (perp k0 q0) (perp k0 q0) - 2 * norm (perp k0 p0) * norm (perp k0 q0)).
Proof.
  destruct Hk as [U _].
  destruct (vec3_dec (perp k0 p0)) as [Z | P].
  { exists 0, 0. destruct (reach_form 0) as (X & E & B). rewrite Z in *. rewrite norm_vzero in *. apply Rabs_le_inv in B. rewrite E. split; lra. }
  destruct (vec3_dec (perp k0 q0)) as [Z | Q].
  { exists 0, 0. destruct (reach_form 0) as (X & E & B). rewrite Z in *. rewrite norm_vzero in *. apply Rabs_le_inv in B. rewrite E. split; lra. }
  destruct (subproblem1_dirs k0 p0 q0 U P Q) as (_ & t0 & _ & F & _).
  exists (t0 + 0), (t0 + PI). unfold reach_sq. rewrite <- !rot_rotate by exact U. rewrite !sp3_dist by exact U. rewrite !(sp3_angle k0 p0 q0 t0) by assumption. rewrite cos_0, cos_PI. unfold base_sq. split; ring.
Qed.
Lemma sp3_unfold : g_subproblem3 A p q k d =
  if (b_lt sp3_dpsq (nzero A) || b_lt (b_lit 1 1) (Babs (b_div sp3_num sp3_den)))%bool then Ok []
  else let* theta := g_subproblem1 A (l_div A sp3_pp (l_norm A sp3_pp)) (l_div A sp3_qp (l_norm A sp3_qp)) k in
       let phi := m_acos L (b_div sp3_num sp3_den) in if b_lt (nzero A) (Babs phi) then Ok [b_add theta phi; b_sub theta phi] else Ok [theta].
Proof. reflexivity. Qed.

(** the margin, 2^-40 of the squared size *)
Definition slack : R := bpow radix2 (-40) * (M * M).
Lemma slack_val : slack = 8192 * uu * (M * M). Proof. unfold slack. rewrite uu_val'. cbn. lra. Qed.
Lemma zero_val : bfin (nzero A) /\ bval (nzero A) = 0. Proof. split; [reflexivity | vm_compute; lra]. Qed.
Lemma sp3_inside t t' : reach_sq k0 p0 q0 t <= bval d * bval d - slack -> bval d * bval d + slack <= reach_sq k0 p0 q0 t' ->
  b_lt sp3_dpsq (nzero A) = false /\ 0 < bval sp3_den /\ Rabs (bval sp3_num) <= bval sp3_den.
Proof.
  intros H1 H2. destruct sp3_values as ((FD & ED) & (FN & EN) & (FE & E0 & EE)). rewrite slack_val in *.
  destruct (reach_form t) as (X & R1 & B1). destruct (reach_form t') as (X' & R2 & B2). rewrite R1 in H1. rewrite R2 in H2.
  pose proof (rg_pos _ _ (mod_rg M HM)) as MP. pose proof uu_pos as U. assert (UM : 0 < uu * (M * M)) by (apply Rmult_lt_0_compat; [lra|]; apply Rmult_lt_0_compat; lra).
  rewrite <- !norm_sq in *. set (a := norm (perp k0 p0)) in *. set (b := norm (perp k0 q0)) in *.
  apply Rabs_le_inv in B1. apply Rabs_le_inv in B2. apply Rabs_le_inv in ED. apply Rabs_le_inv in EN. apply Rabs_le_inv in EE.
  pose proof (Rle_0_sqr (a - b)) as SQ. unfold Rsqr in SQ. split; [|split].
  - apply not_true_is_false. intros B. destruct zero_val as [FZ VZ]. apply (b_lt_val _ _ FD FZ) in B. rewrite VZ in B. lra.
  - lra.
  - apply Rabs_le. lra.
Qed.
Lemma sp3_outside : (forall t, bval d * bval d + slack <= reach_sq k0 p0 q0 t) \/ (forall t, reach_sq k0 p0 q0 t <= bval d * bval d - slack) ->
  bval sp3_den * (1 + 2 * uu) < Rabs (bval sp3_num).
Proof.
  intros H. destruct sp3_values as (_ & (FN & EN) & (FE & E0 & EE)). rewrite slack_val in *. destruct reach_ends as (t & t' & R1 & R2).
  pose proof (rg_pos _ _ (mod_rg M HM)) as MP. pose proof uu_pos as U. pose proof uu_small as US. assert (UM : 0 < uu * (M * M)) by (apply Rmult_lt_0_compat; [lra|]; apply Rmult_lt_0_compat; lra).
  destruct pp_tr as (? & ? & ? & _ & _ & _ & _ & NP). destruct qp_tr as (? & ? & ? & _ & _ & _ & _ & NQ).
  pose proof (norm_nonneg (perp k0 p0)) as A0. pose proof (norm_nonneg (perp k0 q0)) as B0.
  assert (AB : norm (perp k0 p0) * norm (perp k0 q0) <= M * M) by (apply Rmult_le_compat; lra).
  apply Rabs_le_inv in EN. apply Rabs_le_inv in EE.
  assert (DE : bval sp3_den * (2 * uu) <= 10 * (uu * (M * M))).
  { assert (bval sp3_den <= 5 * (M * M)).
    { assert (700 * uu * (M * M) <= 1 * (M * M)) by (apply Rmult_le_compat_r; [apply Rmult_le_pos; lra | lra]). lra. }
    replace (10 * (uu * (M * M))) with (5 * (M * M) * (2 * uu)) by ring. apply Rmult_le_compat_r; lra. }
  destruct H as [H | H].
  - specialize (H t'). rewrite R2 in H. rewrite Rabs_left; lra.
  - specialize (H t). rewrite R1 in H. rewrite Rabs_right; lra.
Qed.
End Elbow.

Theorem C82_inside : forall L bdot p q k d p0 q0 k0 M t t', In bdot b_dots -> moderate M -> stored M p p0 -> stored M q q0 -> stored_axis k k0 ->
  bfin d -> Rabs (bval d) <= M ->
  reach_sq k0 p0 q0 t <= bval d * bval d - bpow radix2 (-40) * (M * M) -> bval d * bval d + bpow radix2 (-40) * (M * M) <= reach_sq k0 p0 q0 t' ->
  g_subproblem3 (b64_arith L bdot) p q k d <> Ok [].
Proof.
  intros L bdot p q k d p0 q0 k0 M t t' HD HM Hp Hq Hk Fd Bd H1 H2.
  destruct (sp3_inside L bdot HD p q k d p0 q0 k0 M HM Hp Hq Hk Fd Bd t t' H1 H2) as (D0 & E0 & NE).
  destruct (sp3_values L bdot HD p q k d p0 q0 k0 M HM Hp Hq Hk Fd Bd) as (_ & (FN & _) & _).
  rewrite sp3_unfold, D0. destruct (quot_le _ _ FN E0 NE) as (_ & _ & ->). cbn [orb].
  destruct (g_subproblem1 _ _ _ _) as [th | e]; cbn [bind]; [|discriminate]. cbv zeta. intros E. destruct (b_lt _ _) in E; discriminate E.
Qed.
Theorem C82_outside : forall L bdot p q k d p0 q0 k0 M, In bdot b_dots -> moderate M -> stored M p p0 -> stored M q q0 -> stored_axis k k0 ->
  bfin d -> Rabs (bval d) <= M ->
  (forall t, bval d * bval d + bpow radix2 (-40) * (M * M) <= reach_sq k0 p0 q0 t) \/ (forall t, reach_sq k0 p0 q0 t <= bval d * bval d - bpow radix2 (-40) * (M * M)) ->
  g_subproblem3 (b64_arith L bdot) p q k d = Ok [].
Proof.
  intros L bdot p q k d p0 q0 k0 M HD HM Hp Hq Hk Fd Bd H.
  pose proof (sp3_outside L bdot HD p q k d p0 q0 k0 M HM Hp Hq Hk Fd Bd H) as Q.
  destruct (sp3_values L bdot HD p q k d p0 q0 k0 M HM Hp Hq Hk Fd Bd) as (_ & (FN & _) & (FE & E0 & _)).
  rewrite sp3_unfold. rewrite (quot_gt _ _ FN FE E0 Q). rewrite orb_true_r. reflexivity.
Qed.
