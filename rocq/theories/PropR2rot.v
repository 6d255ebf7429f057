(** Property C90: away from half turns and from the identity R2rot finds axis and
    angle in binary64. *)
From Coq Require Import Reals ZArith List Bool Lra Lia Psatz.
From Flocq Require Import Core.Core IEEE754.BinarySingleNaN.
From Verif Require Import LinAlg RealAux Py FactsReal FactsLinAlg ModelRot SpecRot FactsRot FactsRot2 FactsNorm SpecSub FactsSub ModelFloat SpecRound FactsRound FactsB64 FactsExact PropNorm FactsTrack SpecArc SpecArc2 FactsAngle FactsSumsq PropElbow PropSlerp PropPi PropAngle.
Import ListNotations.
Open Scope R_scope.

(* ---- real analysis ---- *)
Lemma circle_close x y x' y' e : x * x + y * y = 1 -> 0 <= e <= 1 / 1000 -> Rabs (x' - x) <= e -> Rabs (y' - y) <= e ->
  let r := sqrt (x' * x' + y' * y') in 0 < r /\ Rabs (x' / r - x) <= 32 / 10 * e /\ Rabs (y' / r - y) <= 32 / 10 * e.
Proof.
  intros E He Ex Ey r. assert (XB : -1 <= x <= 1) by nra. assert (YB : -1 <= y <= 1) by nra.
  set (S := x' * x' + y' * y') in *.
  assert (SB : Rabs (S - 1) <= 41 / 10 * e).
  { replace (S - 1) with ((x' - x) * (x' + x) + (y' - y) * (y' + y)) by (unfold S; lra). 
    assert (B : forall u v, -1 <= v <= 1 -> Rabs (u - v) <= e -> Rabs ((u - v) * (u + v)) <= e * (205 / 100)).
    { intros u v V H. rewrite Rabs_mult. apply Rmult_le_compat; try apply Rabs_pos; [exact H|]. apply Rabs_le_inv in H. apply Rabs_le. lra. }
    eapply Rle_trans; [apply Rabs_triang|]. pose proof (B x' x XB Ex). pose proof (B y' y YB Ey). lra. }
  apply Rabs_le_inv in SB. assert (S0 : 0 < S) by lra. assert (RR : r * r = S) by (apply sqrt_sqrt; lra). assert (R0 : 0 < r) by (apply sqrt_lt_R0; exact S0).
  assert (RB : Rabs (r - 1) <= 21 / 10 * e).
  { assert (H : Rabs (r - 1) * (r + 1) <= 41 / 10 * e).
    { rewrite <- (Rabs_right (r + 1)) by lra. rewrite <- Rabs_mult. replace ((r - 1) * (r + 1)) with (S - 1) by (rewrite <- RR; ring). apply Rabs_le. lra. }
    assert (R99 : 99 / 100 <= r) by nra. pose proof (Rabs_pos (r - 1)). nra. }
  assert (RB' := Rabs_le_inv _ _ RB). split; [exact R0|].
  assert (G : forall u v, -1 <= v <= 1 -> Rabs (u - v) <= e -> Rabs (u / r - v) <= 32 / 10 * e).
  { intros u v V H. replace (u / r - v) with (((u - v) + v * (1 - r)) / r) by (field; lra). unfold Rdiv. rewrite Rabs_mult, Rabs_inv, (Rabs_right r) by lra.
    apply Rmult_le_reg_r with r; [exact R0|]. rewrite Rmult_assoc, Rinv_l, Rmult_1_r by lra.
    assert (T : Rabs (v * (1 - r)) <= 21 / 10 * e). { rewrite Rabs_mult, (Rabs_minus_sym 1 r). rewrite <- (Rmult_1_l (21 / 10 * e)). apply Rmult_le_compat; try apply Rabs_pos; [apply Rabs_le; lra | exact RB]. }
    eapply Rle_trans; [apply Rabs_triang|]. assert (32 / 10 * e * (1 - 21 / 10 * e) <= 32 / 10 * e * r) by (apply Rmult_le_compat_l; lra).
    assert (e * e <= 1 / 1000 * e) by (apply Rmult_le_compat_r; lra). lra. }
  split; apply G; assumption.
Qed.
Lemma angle_close t u e : 0 <= t <= PI -> 0 <= u <= PI -> 0 <= e <= 1 / 10 -> Rabs (sin t - sin u) <= e -> Rabs (cos t - cos u) <= e -> Rabs (t - u) <= 18 / 10 * e.
Proof.
  intros Ht Hu He Es Ec. pose proof pi_hi as PH.
  assert (SQ : forall x, Rabs x <= e -> x * x <= e * e). { intros x H. apply Rabs_le_inv in H. nra. }
  assert (C : 1 - cos (t - u) <= e * e).
  { rewrite cos_minus. pose proof (SQ _ Es). pose proof (SQ _ Ec). pose proof (sin2_cos2 t) as T. pose proof (sin2_cos2 u) as U. unfold Rsqr in *. nra. }
  set (d := Rabs (t - u)). assert (D0 : 0 <= d <= PI) by (unfold d; split; [apply Rabs_pos | apply Rabs_le; lra]).
  assert (CD : cos (t - u) = cos d) by (unfold d, Rabs; destruct (Rcase_abs _); [rewrite cos_neg|]; reflexivity).
  rewrite CD in C. replace d with (2 * (d / 2)) in C by field. rewrite cos_2a_sin in C.
  assert (S0 : 0 <= sin (d / 2)) by (apply sin_ge_0; lra).
  assert (S1 : sin (d / 2) <= 708 / 1000 * e) by nra.
  pose proof (sin_lb2 (d / 2) ltac:(lra)) as L2. pose proof (sin_lb3 (d / 2) ltac:(lra)) as L3. lra.
Qed.
Lemma atan2_close x y x' y' e t : 0 <= t <= PI -> y = sin t -> x = cos t -> 0 <= e <= 1 / 1000 -> 0 <= y' -> Rabs (x' - x) <= e -> Rabs (y' - y) <= e ->
  Rabs (atan2 y' x' - t) <= 58 / 10 * e.
Proof.
  intros Ht -> -> He Y0 Ex Ey. pose proof (sin2_cos2 t) as SC. unfold Rsqr in SC.
  destruct (circle_close (cos t) (sin t) x' y' e ltac:(lra) He Ex Ey) as (R0 & Cx & Cy). set (r := sqrt _) in *.
  pose proof (atan2_cos y' x') as AC. pose proof (atan2_sin y' x') as AS. fold r in AC, AS.
  assert (EC : cos (atan2 y' x') = x' / r) by (rewrite <- AC at 2; field; lra). assert (ES : sin (atan2 y' x') = y' / r) by (rewrite <- AS at 2; field; lra).
  pose proof (atan2_range y' x') as RG. pose proof (atan2_pos_sin_nonneg y' x' Y0) as P0.
  eapply Rle_trans; [apply (angle_close _ _ (32 / 10 * e)); [lra | exact Ht | lra | rewrite ES; exact Cy | rewrite EC; exact Cx]|]. lra.
Qed.

Lemma SO3_entries Q : is_SO3 Q -> Rabs (m00 Q) <= 1 /\ Rabs (m01 Q) <= 1 /\ Rabs (m02 Q) <= 1 /\ Rabs (m10 Q) <= 1 /\ Rabs (m11 Q) <= 1 /\ Rabs (m12 Q) <= 1 /\
  Rabs (m20 Q) <= 1 /\ Rabs (m21 Q) <= 1 /\ Rabs (m22 Q) <= 1.
Proof.
  intros [H _]. destruct Q as [a b c d e f g h i]. unfold mmul, mT, I3 in H. cbn in H. injection H as H0 _ _ _ H4 _ _ _ H8. cbn [m00 m01 m02 m10 m11 m12 m20 m21 m22].
  repeat split; apply Rabs_le; nra.
Qed.

Section R2.
Context (L : libm) (bdot : list b64 -> list b64 -> b64) (HD : In bdot b_dots).
Local Notation A := (b64_arith L bdot).
Context (a00 a01 a02 a10 a11 a12 a20 a21 a22 : b64) (k : vec3) (t c : R).
Local Notation Q := (rot k t).
Context (Uk : unit3 k) (Ht : 0 <= t <= PI) (Hc : 0 <= c <= 33554432).
Context (T00 : tr c 1 a00 (m00 Q)) (T01 : tr c 1 a01 (m01 Q)) (T02 : tr c 1 a02 (m02 Q)).
Context (T10 : tr c 1 a10 (m10 Q)) (T11 : tr c 1 a11 (m11 Q)) (T12 : tr c 1 a12 (m12 Q)).
Context (T20 : tr c 1 a20 (m20 Q)) (T21 : tr c 1 a21 (m21 Q)) (T22 : tr c 1 a22 (m22 Q)).

Lemma rg12 x : 1 <= x <= 1024 -> rg 900 x.
Proof. intros [H1 H2]. split; [apply Rle_trans with (bpow radix2 0); [apply bpow_le; lia | exact H1] | apply Rle_trans with (bpow radix2 10); [exact H2 | apply bpow_le; lia]]. Qed.
Lemma cbc x : 0 <= x <= 4000000000000 -> cb x. Proof. unfold cb. lra. Qed.
Lemma dif_tr x y v w : tr c 1 x v -> tr c 1 y w -> tr (c + 2) 2 (b_sub x y) (v - w).
Proof.
  intros X Y. pose proof (tr_sub c c 1 x y v w ltac:(apply cbc; lra) ltac:(apply cbc; lra) ltac:(apply rg12; lra) X Y) as D.
  rewrite Rmult_1_r in D. eapply tr_weak; [|lra | exact D]. lra.
Qed.
Definition r2_entries : list b64 :=
  [b_sub a00 a00; b_sub a01 a10; b_sub a02 a20; b_sub a10 a01; b_sub a11 a11; b_sub a12 a21; b_sub a20 a02; b_sub a21 a12; b_sub a22 a22].
Definition r2_sin : b64 := b_div (b_sqrt (bdot r2_entries r2_entries)) (b_sqrt (b_lit 8 1)).
Definition r2_cos : b64 := b_div (b_sub (b_add (b_add a00 a11) a22) (b_lit 1 1)) (b_lit 2 1).

Lemma small_tr d x v : 0 <= d <= 40000000 -> tr d 2 x v -> small x.
Proof. intros D (F & E & B). split; [exact F|]. pose proof uu_val' as UV. apply Rabs_le_inv in E. apply Rabs_le_inv in B. rewrite UV in E. apply Rabs_le. nra. Qed.
Definition r2_diff : mat3 :=
  M3 (bval (b_sub a00 a00)) (bval (b_sub a01 a10)) (bval (b_sub a02 a20)) (bval (b_sub a10 a01)) (bval (b_sub a11 a11)) (bval (b_sub a12 a21)) (bval (b_sub a20 a02)) (bval (b_sub a21 a12)) (bval (b_sub a22 a22)).
(** the difference of M and its transpose *)
Lemma r2_diff_ok : sumsq r2_entries = frob2 r2_diff /\ Forall small r2_entries /\ 2828 / 1000 <= sqrt 8 <= 2829 / 1000 /\ 0 <= sin t <= 1 /\
  Rabs (frob r2_diff - sqrt 8 * sin t) <= 3 * ((c + 2) * (uu * 2)).
Proof.
  pose proof uu_pos as U. pose proof uu_small as US. pose proof uu_val' as UV. pose proof ee_le_uu as EU.
  pose proof (dif_tr _ _ _ _ T00 T00) as D00. pose proof (dif_tr _ _ _ _ T01 T10) as D01. pose proof (dif_tr _ _ _ _ T02 T20) as D02.
  pose proof (dif_tr _ _ _ _ T10 T01) as D10. pose proof (dif_tr _ _ _ _ T11 T11) as D11. pose proof (dif_tr _ _ _ _ T12 T21) as D12.
  pose proof (dif_tr _ _ _ _ T20 T02) as D20. pose proof (dif_tr _ _ _ _ T21 T12) as D21. pose proof (dif_tr _ _ _ _ T22 T22) as D22.
  set (Dm := r2_diff).
  set (D0 := msub Q (mT Q)).
  assert (SQ : sumsq r2_entries = frob2 Dm) by (unfold sumsq, r2_entries, frob2, Dm, r2_diff; cbn [fold_right m00 m01 m02 m10 m11 m12 m20 m21 m22]; ring).
  assert (SM : Forall small r2_entries) by (unfold r2_entries; repeat (apply Forall_cons; [eapply small_tr; [|eassumption]; lra|]); apply Forall_nil).
  (* the exact length *)
  set (s := sin t) in *. assert (S0 : 0 <= s) by (apply sin_ge_0; lra). assert (S1 : s <= 1) by apply SIN_bound.
  assert (S8 : 2828 / 1000 <= sqrt 8 <= 2829 / 1000).
  { assert (X : 0 <= sqrt 8) by apply sqrt_pos. assert (Y : sqrt 8 * sqrt 8 = 8) by (apply sqrt_sqrt; lra). split; nra. }
  assert (F0 : frob D0 = sqrt 8 * s). { pose proof (R2rot_sin k t Uk S0) as R. fold D0 in R. change (sqrt (frob2 D0)) with (frob D0) in R. fold s in R. rewrite <- R. field. lra. }
  (* the distance *)
  assert (DF : Rabs (frob Dm - frob D0) <= 3 * ((c + 2) * (uu * 2))).
  { assert (E0 : 0 <= (c + 2) * (uu * 2)) by (apply Rmult_le_pos; lra).
    assert (E1 : frob (msub Dm D0) <= 3 * ((c + 2) * (uu * 2))).
    { eapply Rle_trans; [apply (frob_mono _ (mconst ((c + 2) * (uu * 2))))|apply frob_mconst; exact E0].
      unfold mle, vle, row0, row1, row2, mabs, mconst, D0, Dm, r2_diff, msub, mT. cbn [m00 m01 m02 m10 m11 m12 m20 m21 m22 vx vy vz].
      repeat split; match goal with H : tr _ _ ?x _ |- Rabs (bval ?x - _) <= _ => apply H end. }
    assert (T1 : frob Dm <= frob D0 + frob (msub Dm D0)). { replace Dm with (madd D0 (msub Dm D0)) at 1 by (unfold D0; generalize Q; clearbody Dm; intros q; destruct Dm, q; unfold madd, msub, mT; cbn; f_equal; ring). apply frob_triangle. }
    assert (T2 : frob D0 <= frob Dm + frob (msub Dm D0)).
    { replace (frob (msub Dm D0)) with (frob (mscale (-1) (msub Dm D0))) by (rewrite frob_mscale, Rabs_left by lra; ring).
      replace D0 with (madd Dm (mscale (-1) (msub Dm D0))) at 1 by (clearbody Dm D0; destruct Dm, D0; unfold madd, msub, mscale; cbn; f_equal; ring). apply frob_triangle. }
    apply Rabs_le. lra. }
  rewrite F0 in DF. auto 10.
Qed.
(** A small sine is read as a small sine. *)
Lemma r2_sin_small : sin t <= bpow radix2 (-20) -> b_lt r2_sin (b_lit 1 1000000) = true.
Proof.
  intros Hs. pose proof uu_pos as U. pose proof uu_small as US. pose proof uu_val' as UV. pose proof ee_le_uu as EU.
  destruct r2_diff_ok as (SQ & SM & S8 & [S0 S1] & DF). set (Dm := r2_diff) in *. set (s := sin t) in *.
  assert (P20 : bpow radix2 (-20) = 1 / 1048576) by (cbn; lra). rewrite P20 in Hs.
  assert (FU : frob Dm <= 2725 / 1000000000). { apply Rabs_le_inv in DF. assert (sqrt 8 * s <= sqrt 8 * (1 / 1048576)) by (apply Rmult_le_compat_l; lra). rewrite UV in DF. lra. }
  assert (FP : 0 <= frob Dm) by apply sqrt_pos. assert (FF : frob Dm * frob Dm = frob2 Dm) by (apply sqrt_sqrt; unfold frob2; nra).
  destruct (dot_sq bdot r2_entries HD ltac:(cbn; lia) SM) as (FY & PY & EY). rewrite SQ, <- FF in EY. set (y := bval (bdot r2_entries r2_entries)) in *.
  assert (YU : y <= 2735 / 1000000000 * (2735 / 1000000000)).
  { assert (frob Dm * frob Dm <= 2725 / 1000000000 * (2725 / 1000000000)) by (apply Rmult_le_compat; lra). apply Rabs_le_inv in EY.
    assert (60 * uu * (frob Dm * frob Dm) <= 60 * uu * (1 / 1000)) by (apply Rmult_le_compat_l; lra). rewrite UV in *. lra. }
  assert (SY : sqrt y <= 2735 / 1000000000). { rewrite <- (sqrt_square (2735 / 1000000000)) by lra. apply sqrt_le_1_alt. exact YU. }
  destruct (sqrt_range0 (bdot r2_entries r2_entries) FY PY) as [FN VN]. fold y in VN. set (n := b_sqrt (bdot r2_entries r2_entries)) in *.
  pose proof (sqrt_pos y) as PS. pose proof (rnd_err (sqrt y)) as RE. rewrite <- VN in RE. rewrite (Rabs_right (sqrt y)) in RE by lra. apply Rabs_le_inv in RE.
  assert (N0 : 0 <= bval n) by (rewrite VN; apply rnd_nonneg; exact PS).
  assert (N1 : bval n <= 2736 / 1000000000). { assert (uu * sqrt y <= uu * 1) by (apply Rmult_le_compat_l; lra). rewrite UV in *. lra. }
  assert (V8 : bval (b_lit 8 1) = 8) by (vm_compute; lra).
  destruct (sqrt_range0 (b_lit 8 1) eq_refl ltac:(rewrite V8; lra)) as [F8 W8]. rewrite V8 in W8. pose proof (rnd_err (sqrt 8)) as R8. rewrite <- W8 in R8. rewrite (Rabs_right (sqrt 8)) in R8 by lra.
  set (z := b_sqrt (b_lit 8 1)) in *.
  assert (Z0 : 2827 / 1000 <= bval z) by (apply Rabs_le_inv in R8; assert (uu * sqrt 8 <= uu * (2829 / 1000)) by (apply Rmult_le_compat_l; lra); rewrite UV in *; lra).
  assert (QB : 0 <= bval n / bval z <= 97 / 100000000).
  { split; [apply Rmult_le_pos; [lra | left; apply Rinv_0_lt_compat; lra]|]. apply Rmult_le_reg_r with (bval z); [lra|]. unfold Rdiv at 1. rewrite Rmult_assoc, Rinv_l, Rmult_1_r by lra.
    apply Rle_trans with (97 / 100000000 * (2827 / 1000)); [lra | apply Rmult_le_compat_l; lra]. }
  destruct (div_range n z FN ltac:(lra)) as [FQ VQ]; [apply rg_16; lra|]. change (b_div n z) with r2_sin in FQ, VQ.
  pose proof (rnd_err (bval n / bval z)) as RQ. rewrite <- VQ in RQ. rewrite (Rabs_right (bval n / bval z)) in RQ by lra. apply Rabs_le_inv in RQ.
  apply (b_lt_val _ (b_lit 1 1000000) FQ eq_refl). assert (V : 99 / 100000000 <= bval (b_lit 1 1000000)) by (vm_compute; lra).
  assert (uu * (bval n / bval z) <= uu * 1) by (apply Rmult_le_compat_l; lra). rewrite UV in *. lra.
Qed.
Lemma r2_cos_ok : bfin r2_cos /\ Rabs (bval r2_cos - cos t) <= (22 / 10 * c + 80) * uu.
Proof.
  pose proof uu_pos as U. pose proof uu_val' as UV. pose proof ee_le_uu as EU. assert (CU : 0 <= c * uu) by (apply Rmult_le_pos; lra).
  pose proof (tr_add c c 1 _ _ _ _ ltac:(apply cbc; lra) ltac:(apply cbc; lra) ltac:(apply rg12; lra) T00 T11) as X1. rewrite Rmult_1_r in X1.
  assert (X2 : tr c 2 a22 (m22 Q)) by (destruct T22 as (F & E & B); split; [exact F|]; split; [|lra]; eapply Rle_trans; [exact E|]; lra).
  pose proof (tr_add ((c + c) / 2 + 2) c 2 _ _ _ _ ltac:(apply cbc; lra) ltac:(apply cbc; lra) ltac:(apply rg12; lra) X1 X2) as X3.
  assert (X4 : tr 0 (2 * 2) (b_lit 1 1) 1) by (destruct one_val as [F V]; rewrite <- V; apply tr_exact; [exact F | rewrite V, Rabs_right; lra]).
  pose proof (tr_sub (((c + c) / 2 + 2 + c) / 2 + 2) 0 (2 * 2) _ _ _ _ ltac:(apply cbc; lra) ltac:(apply cbc; lra) ltac:(apply rg12; lra) X3 X4) as (F5 & E5 & B5).
  set (x := b_sub (b_add (b_add a00 a11) a22) (b_lit 1 1)) in *.
  assert (TR : m00 Q + m11 Q + m22 Q - 1 = 2 * cos t) by (pose proof (rot_trace k t Uk) as R; unfold trace in R; lra). rewrite TR in *.
  assert (V2 : bval (b_lit 2 1) = 2) by (vm_compute; lra).
  assert (CB : -1 <= cos t <= 1) by apply COS_bound.
  assert (E6 : Rabs (bval x / 2 - cos t) <= (2 * c + 14) * uu). { replace (bval x / 2 - cos t) with ((bval x - 2 * cos t) / 2) by field. unfold Rdiv. rewrite Rabs_mult, (Rabs_right (/ 2)) by lra. lra. }
  assert (XB : Rabs (bval x / 2) <= 2). { apply Rabs_le_inv in E6. rewrite UV in E6. apply Rabs_le. lra. }
  destruct (div_range x (b_lit 2 1) F5 ltac:(rewrite V2; lra)) as [FQ VQ]; [apply rg_16; rewrite V2; apply Rabs_le_inv in XB; lra|].
  change (b_div x (b_lit 2 1)) with r2_cos in FQ, VQ. rewrite V2 in VQ. split; [exact FQ|]. rewrite VQ. pose proof (rnd_err (bval x / 2)) as RE.
  assert (uu * Rabs (bval x / 2) <= uu * 2) by (apply Rmult_le_compat_l; lra).
  replace (rnd (bval x / 2) - cos t) with ((rnd (bval x / 2) - bval x / 2) + (bval x / 2 - cos t)) by ring. eapply Rle_trans; [apply Rabs_triang|]. lra.
Qed.

Context (Hs : bpow radix2 (-20) <= sin t).
Lemma r2_sin_ok : bfin r2_sin /\ Rabs (bval r2_sin - sin t) <= (22 / 10 * c + 80) * uu.
Proof.
  pose proof uu_pos as U. pose proof uu_small as US. pose proof uu_val' as UV. pose proof ee_le_uu as EU.
  destruct r2_diff_ok as (SQ & SM & S8 & [S0 S1] & DF). set (Dm := r2_diff) in *. set (s := sin t) in *.
  assert (P20 : bpow radix2 (-20) = 1 / 1048576) by (cbn; lra). rewrite P20 in Hs.
  assert (FL : 1 / 1000000 <= frob Dm). { apply Rabs_le_inv in DF. assert (sqrt 8 * (1 / 1048576) <= sqrt 8 * s) by (apply Rmult_le_compat_l; lra). rewrite UV in DF. lra. }
  assert (FU : frob Dm <= 3). { apply Rabs_le_inv in DF. assert (sqrt 8 * s <= sqrt 8 * 1) by (apply Rmult_le_compat_l; lra). rewrite UV in DF. lra. }
  assert (HB : bpow radix2 (-60) <= sumsq r2_entries).
  { rewrite SQ. apply Rle_trans with (bpow radix2 (-40)); [apply bpow_le; lia|]. assert (FF : frob Dm * frob Dm = frob2 Dm) by (apply sqrt_sqrt; unfold frob2; nra). rewrite <- FF.
    apply Rle_trans with (1 / 1000000 * (1 / 1000000)); [cbn; lra | apply Rmult_le_compat; lra]. }
  destruct (len_sq bdot r2_entries HD ltac:(cbn; lia) SM HB) as (FN & PN & EN). rewrite SQ in EN. change (sqrt (frob2 Dm)) with (frob Dm) in EN.
  set (n := b_sqrt (bdot r2_entries r2_entries)) in *.
  (* the square root of 8 *)
  assert (V8 : bval (b_lit 8 1) = 8) by (vm_compute; lra).
  destruct (sqrt_range0 (b_lit 8 1) eq_refl ltac:(rewrite V8; lra)) as [F8 W8]. rewrite V8 in W8. pose proof (rnd_err (sqrt 8)) as R8. rewrite <- W8 in R8. rewrite (Rabs_right (sqrt 8)) in R8 by lra.
  set (z := b_sqrt (b_lit 8 1)) in *.
  assert (E8 : Rabs (bval z - sqrt 8) <= 4 * uu) by (assert (uu * sqrt 8 <= uu * (2829 / 1000)) by (apply Rmult_le_compat_l; lra); lra).
  assert (EN2 : Rabs (bval n - sqrt 8 * s) <= (6 * c + 202) * uu).
  { replace (bval n - sqrt 8 * s) with ((bval n - frob Dm) + (frob Dm - sqrt 8 * s)) by ring. eapply Rle_trans; [apply Rabs_triang|].
    assert (63 * uu * frob Dm <= 63 * uu * 3) by (apply Rmult_le_compat_l; lra). lra. }
  assert (Z0 : 2827 / 1000 <= bval z) by (apply Rabs_le_inv in E8; lra).
  assert (QE : Rabs (bval n / bval z - s) <= (213 / 100 * c + 75) * uu).
  { replace (bval n / bval z - s) with (((bval n - sqrt 8 * s) - s * (bval z - sqrt 8)) / bval z) by (field; lra).
    unfold Rdiv. rewrite Rabs_mult, Rabs_inv, (Rabs_right (bval z)) by lra. apply Rmult_le_reg_r with (bval z); [lra|]. rewrite Rmult_assoc, Rinv_l, Rmult_1_r by lra.
    assert (T : Rabs (s * (bval z - sqrt 8)) <= 4 * uu) by (rewrite Rabs_mult, (Rabs_right s) by lra; rewrite <- (Rmult_1_l (4 * uu)); apply Rmult_le_compat; try apply Rabs_pos; lra).
    apply Rle_trans with ((213 / 100 * c + 75) * uu * (2827 / 1000)); [|apply Rmult_le_compat_l; [apply Rmult_le_pos; lra | lra]].
    unfold Rminus at 1. eapply Rle_trans; [apply Rabs_triang|]. rewrite Rabs_Ropp. assert (0 <= c * uu) by (apply Rmult_le_pos; lra). lra. }
  assert (QB : Rabs (bval n / bval z) <= 11 / 10).
  { apply Rabs_le_inv in QE. rewrite UV in QE. apply Rabs_le. lra. }
  destruct (div_range n z FN ltac:(lra)) as [FQ VQ]; [apply rg_16; apply Rabs_le_inv in QB; lra|].
  change (b_div n z) with r2_sin in FQ, VQ. split; [exact FQ|]. rewrite VQ. pose proof (rnd_err (bval n / bval z)) as RE.
  assert (uu * Rabs (bval n / bval z) <= uu * (11 / 10)) by (apply Rmult_le_compat_l; lra).
  replace (rnd (bval n / bval z) - s) with ((rnd (bval n / bval z) - bval n / bval z) + (bval n / bval z - s)) by ring. eapply Rle_trans; [apply Rabs_triang|].
  assert (0 <= c * uu) by (apply Rmult_le_pos; lra). lra.
Qed.
Lemma sin_low : 99 / 100 * sin t <= bval r2_sin <= 101 / 100 /\ 1 / 1048576 <= sin t <= 1.
Proof.
  destruct r2_sin_ok as [_ E]. apply Rabs_le_inv in E. pose proof uu_val' as UV. assert (P20 : bpow radix2 (-20) = 1 / 1048576) by (cbn; lra). rewrite P20 in Hs. pose proof (SIN_bound t).
  rewrite UV in E. lra.
Qed.
Definition r2_s2 : b64 := b_mul (b_lit 2 1) r2_sin.
Lemma r2_s2_ok : bfin r2_s2 /\ Rabs (bval r2_s2 - 2 * sin t) <= (44 / 10 * c + 164) * uu /\ 197 / 100 * sin t <= bval r2_s2.
Proof.
  destruct r2_sin_ok as [F E]. destruct sin_low as ([S1 S2] & S4). pose proof uu_pos as U. pose proof uu_small as US. pose proof ee_le_uu as EU. pose proof uu_val' as UV.
  assert (V2 : bval (b_lit 2 1) = 2) by (vm_compute; lra).
  destruct (mul_range (b_lit 2 1) r2_sin eq_refl F) as [FM VM]; [apply rg_16; rewrite V2; lra|]. rewrite V2 in VM. fold r2_s2 in FM, VM. split; [exact FM|].
  pose proof (rnd_err (2 * bval r2_sin)) as RE. rewrite <- VM in RE. rewrite (Rabs_right (2 * bval r2_sin)) in RE by lra.
  assert (uu * (2 * bval r2_sin) <= uu * (2 * (101 / 100))) by (apply Rmult_le_compat_l; lra). apply Rabs_le_inv in RE. apply Rabs_le_inv in E.
  assert (0 <= c * uu) by (apply Rmult_le_pos; lra). split; [apply Rabs_le; lra|]. assert (uu <= 1 / 1000000000000) by (rewrite UV; lra). lra.
Qed.
Lemma axis_ok x v : Rabs v <= 1 -> tr (c + 4) 4 x (4 * (v * sin t)) ->
  let q := b_div (b_div x (b_lit 2 1)) r2_s2 in bfin q /\ Rabs (bval q - v) <= (33 / 10 * c + 93) * uu / sin t.
Proof.
  intros Bv (Fx & Ex & Bx) q. destruct sin_low as (_ & S1 & S2). destruct r2_s2_ok as (Fs & Es & Ls). set (s := sin t) in *.
  pose proof uu_pos as U. pose proof uu_small as US. pose proof ee_le_uu as EU. pose proof uu_val' as UV. assert (CU : 0 <= c * uu) by (apply Rmult_le_pos; lra).
  assert (V2 : bval (b_lit 2 1) = 2) by (vm_compute; lra).
  assert (XB : Rabs (bval x) <= 5). { apply Rabs_le_inv in Ex. apply Rabs_le_inv in Bx. rewrite UV in Ex. apply Rabs_le. lra. }
  apply Rabs_le_inv in XB.
  destruct (div_range x (b_lit 2 1) Fx ltac:(rewrite V2; lra)) as [FH VH]; [apply rg_16; rewrite V2; lra|]. rewrite V2 in VH. set (h := b_div x (b_lit 2 1)) in *.
  assert (EH : Rabs (bval h - 2 * (v * s)) <= (2 * c + 12) * uu).
  { pose proof (rnd_err (bval x / 2)) as RE. rewrite <- VH in RE. assert (Rabs (bval x / 2) <= 5 / 2) by (apply Rabs_le; lra).
    assert (uu * Rabs (bval x / 2) <= uu * (5 / 2)) by (apply Rmult_le_compat_l; lra). apply Rabs_le_inv in RE. apply Rabs_le_inv in Ex. apply Rabs_le. lra. }
  assert (S0 : 0 < s) by lra. assert (Z0 : 0 < bval r2_s2) by lra.
  assert (QE : Rabs (bval h / bval r2_s2 - v) <= (326 / 100 * c + 90) * uu / s).
  { replace (bval h / bval r2_s2 - v) with (((bval h - 2 * (v * s)) - v * (bval r2_s2 - 2 * s)) / bval r2_s2) by (field; lra).
    unfold Rdiv at 1. rewrite Rabs_mult, Rabs_inv, (Rabs_right (bval r2_s2)) by lra. apply Rmult_le_reg_r with (bval r2_s2); [lra|]. rewrite Rmult_assoc, Rinv_l, Rmult_1_r by lra.
    assert (T : Rabs (v * (bval r2_s2 - 2 * s)) <= (44 / 10 * c + 164) * uu). { rewrite Rabs_mult. rewrite <- (Rmult_1_l (_ * uu)). apply Rmult_le_compat; try apply Rabs_pos; assumption. }
    apply Rle_trans with ((326 / 100 * c + 90) * uu / s * (197 / 100 * s)).
    - replace ((326 / 100 * c + 90) * uu / s * (197 / 100 * s)) with ((326 / 100 * c + 90) * uu * (197 / 100)) by (field; lra).
      unfold Rminus at 1. eapply Rle_trans; [apply Rabs_triang|]. rewrite Rabs_Ropp. lra.
    - apply Rmult_le_compat_l; [|lra]. apply Rmult_le_pos; [apply Rmult_le_pos; lra | left; apply Rinv_0_lt_compat; lra]. }
  assert (I1 : 1 <= / s <= 1048576).
  { split; [rewrite <- Rinv_1; apply Rinv_le_contravar; lra|]. rewrite <- (Rinv_inv 1048576). apply Rinv_le_contravar; lra. }
  assert (QS : (326 / 100 * c + 90) * uu / s <= 2 / 100).
  { unfold Rdiv. apply Rle_trans with ((326 / 100 * c + 90) * uu * 1048576); [apply Rmult_le_compat_l; [apply Rmult_le_pos; lra | lra]|]. rewrite UV. lra. }
  assert (QB : Rabs (bval h / bval r2_s2) <= 102 / 100). { apply Rabs_le_inv in QE. apply Rabs_le_inv in Bv. apply Rabs_le. lra. }
  destruct (div_range h r2_s2 FH ltac:(lra)) as [FQ VQ]; [apply rg_16; apply Rabs_le_inv in QB; lra|]. fold q in FQ, VQ. split; [exact FQ|].
  pose proof (rnd_err (bval h / bval r2_s2)) as RE. rewrite <- VQ in RE. assert (uu * Rabs (bval h / bval r2_s2) <= uu * (102 / 100)) by (apply Rmult_le_compat_l; lra).
  replace (bval q - v) with ((bval q - bval h / bval r2_s2) + (bval h / bval r2_s2 - v)) by ring. eapply Rle_trans; [apply Rabs_triang|].
  assert (uu * 1 <= uu * / s) by (apply Rmult_le_compat_l; lra). assert (0 <= c * uu * / s) by (apply Rmult_le_pos; lra).
  unfold Rdiv in *. lra.
Qed.
Lemma sum_tr x y v : tr (c + 2) 2 x v -> tr (c + 2) 2 y v -> tr (c + 4) 4 (b_add x y) (v + v).
Proof.
  intros X Y. pose proof (tr_add (c + 2) (c + 2) 2 x y v v ltac:(apply cbc; lra) ltac:(apply cbc; lra) ltac:(apply rg12; lra) X Y) as D.
  replace (2 * 2) with 4 in D by ring. eapply tr_weak; [|lra | exact D]. lra.
Qed.
Lemma sub_tr x y v : tr (c + 2) 2 x v -> tr (c + 2) 2 y (- v) -> tr (c + 4) 4 (b_sub x y) (v + v).
Proof.
  intros X Y. pose proof (tr_sub (c + 2) (c + 2) 2 x y v (- v) ltac:(apply cbc; lra) ltac:(apply cbc; lra) ltac:(apply rg12; lra) X Y) as D.
  replace (2 * 2) with 4 in D by ring. replace (v - - v) with (v + v) in D by ring. eapply tr_weak; [|lra | exact D]. lra.
Qed.
Lemma skew : m21 Q - m12 Q = 2 * (vx k * sin t) /\ m02 Q - m20 Q = 2 * (vy k * sin t) /\ m10 Q - m01 Q = 2 * (vz k * sin t).
Proof. pose proof (rot_sub_T k t) as E. destruct k as [k1 k2 k3]. unfold rot, hat, mmul, madd, mscale, I3. cbn [m00 m01 m02 m10 m11 m12 m20 m21 m22 vx vy vz]. repeat split; ring. Qed.

Lemma R2rot_acc : libm_atan2_ok L (8 * uu) -> b_lt r2_sin (b_lit 1 1000000) = false ->
  let r := g_R2rot A (W3 (W3 a00 a01 a02) (W3 a10 a11 a12) (W3 a20 a21 a22)) in
  bfin (snd r) /\ Rabs (bval (snd r) - t) <= (13 * c + 500) * uu /\
  bfin (w0 (fst r)) /\ bfin (w1 (fst r)) /\ bfin (w2 (fst r)) /\
  norm (vsub (V3 (bval (w0 (fst r))) (bval (w1 (fst r))) (bval (w2 (fst r)))) k) <= (6 * c + 170) * uu / sin t.
Proof.
  intros HL LT r.
  destruct r2_sin_ok as [FS ES]. destruct r2_cos_ok as [FC EC]. destruct sin_low as ([S1 S2] & S4).
  pose proof uu_pos as U. pose proof uu_val' as UV. assert (CU : 0 <= c * uu) by (apply Rmult_le_pos; lra).
  assert (RU : r = (v3map (fun x => b_div x r2_s2) (g_invhat A (W3 (W3 (b_sub a00 a00) (b_sub a01 a10) (b_sub a02 a20)) (W3 (b_sub a10 a01) (b_sub a11 a11) (b_sub a12 a21)) (W3 (b_sub a20 a02) (b_sub a21 a12) (b_sub a22 a22)))),
                   m_atan2 L r2_sin r2_cos)).
  { transitivity (if b_lt r2_sin (b_lit 1 1000000) then r else (v3map (fun x => b_div x r2_s2) (g_invhat A (W3 (W3 (b_sub a00 a00) (b_sub a01 a10) (b_sub a02 a20)) (W3 (b_sub a10 a01) (b_sub a11 a11) (b_sub a12 a21)) (W3 (b_sub a20 a02) (b_sub a21 a12) (b_sub a22 a22)))),
                   m_atan2 L r2_sin r2_cos)); [|rewrite LT; reflexivity].
    unfold r, g_R2rot. cbv zeta. change (nlt A _ (nlit A 1 1000000)) with (b_lt r2_sin (b_lit 1 1000000)). rewrite LT. reflexivity. }
  rewrite RU. clear RU r. cbn [fst snd v3map w0 w1 w2 g_invhat].
  change (nneg A) with (@Bopp 53 1024). change (nadd A) with b_add. change (nsub A) with b_sub. change (ndiv A) with b_div. change (nlit A 2 1) with (b_lit 2 1).
  destruct (HL r2_sin r2_cos FS FC ltac:(lra)) as [FT ET]. split; [exact FT|]. split.
  { assert (D : Rabs (atan2 (bval r2_sin) (bval r2_cos) - t) <= 58 / 10 * ((22 / 10 * c + 80) * uu)).
    { apply (atan2_close (cos t) (sin t)); [exact Ht | reflexivity | reflexivity | rewrite UV; lra | lra | exact EC | exact ES]. }
    apply Rabs_le_inv in D. apply Rabs_le_inv in ET. apply Rabs_le. lra. }
  destruct skew as (K0 & K1 & K2). destruct (entry_le k) as (E0 & E1 & E2). rewrite (norm_unit k Uk) in *.
  pose proof (dif_tr _ _ _ _ T21 T12) as D21. pose proof (dif_tr _ _ _ _ T12 T21) as D12. pose proof (dif_tr _ _ _ _ T02 T20) as D02. pose proof (dif_tr _ _ _ _ T20 T02) as D20.
  pose proof (dif_tr _ _ _ _ T10 T01) as D10. pose proof (dif_tr _ _ _ _ T01 T10) as D01.
  apply tr_opp in D12. apply tr_opp in D01. replace (- (m12 Q - m21 Q)) with (m21 Q - m12 Q) in D12 by ring. replace (- (m01 Q - m10 Q)) with (m10 Q - m01 Q) in D01 by ring.
  replace (m20 Q - m02 Q) with (- (m02 Q - m20 Q)) in D20 by ring. rewrite K0 in *. rewrite K1 in *. rewrite K2 in *.
  pose proof (sum_tr _ _ _ D12 D21) as X0. pose proof (sub_tr _ _ _ D02 D20) as X1. pose proof (sum_tr _ _ _ D01 D10) as X2.
  assert (FO : forall v, 2 * (v * sin t) + 2 * (v * sin t) = 4 * (v * sin t)) by (intros; ring). rewrite FO in X0, X1, X2.
  destruct (axis_ok _ _ E0 X0) as [A0 B0]. destruct (axis_ok _ _ E1 X1) as [A1 B1]. destruct (axis_ok _ _ E2 X2) as [A2 B2].
  split; [exact A0|]. split; [exact A1|]. split; [exact A2|].
  assert (P0 : 0 <= (33 / 10 * c + 93) * uu / sin t) by (apply Rmult_le_pos; [apply Rmult_le_pos; lra | left; apply Rinv_0_lt_compat; lra]).
  eapply Rle_trans; [apply (norm_entries _ _ P0); cbn [vx vy vz vsub]; assumption|].
  assert (0 <= c * uu * / sin t) by (apply Rmult_le_pos; [lra | left; apply Rinv_0_lt_compat; lra]). assert (0 <= uu * / sin t) by (apply Rmult_le_pos; [lra | left; apply Rinv_0_lt_compat; lra]).
  unfold Rdiv. lra.
Qed.
Lemma sin_above : bpow radix2 (-19) <= sin t -> b_lt r2_sin (b_lit 1 1000000) = false.
Proof.
  intros H. destruct r2_sin_ok as [FS E]. apply Rabs_le_inv in E. pose proof uu_val' as UV. assert (P19 : bpow radix2 (-19) = 1 / 524288) by (cbn; lra). rewrite P19 in H. rewrite UV in E.
  apply not_true_is_false. intros B. apply (b_lt_val _ (b_lit 1 1000000) FS eq_refl) in B. assert (V : bval (b_lit 1 1000000) <= 101 / 100000000) by (vm_compute; lra). lra.
Qed.
End R2.


(** the sine and the cosine that R2rot computes *)
Definition read_sin (bdot : list b64 -> list b64 -> b64) (M : m3 b64) : b64 :=
  r2_sin bdot (w0 (w0 M)) (w1 (w0 M)) (w2 (w0 M)) (w0 (w1 M)) (w1 (w1 M)) (w2 (w1 M)) (w0 (w2 M)) (w1 (w2 M)) (w2 (w2 M)).
Definition read_cos (M : m3 b64) : b64 := r2_cos (w0 (w0 M)) (w1 (w1 M)) (w2 (w2 M)).
Lemma stored_tr (M : m3 b64) k t e : unit3 k -> 0 <= e <= bpow radix2 (-28) -> stored_matrix e M (rot k t) ->
  exists c, c * uu = e /\ 0 <= c <= 33554432 /\
  (tr c 1 (w0 (w0 M)) (m00 (rot k t)) /\ tr c 1 (w1 (w0 M)) (m01 (rot k t)) /\ tr c 1 (w2 (w0 M)) (m02 (rot k t))) /\
  (tr c 1 (w0 (w1 M)) (m10 (rot k t)) /\ tr c 1 (w1 (w1 M)) (m11 (rot k t)) /\ tr c 1 (w2 (w1 M)) (m12 (rot k t))) /\
  (tr c 1 (w0 (w2 M)) (m20 (rot k t)) /\ tr c 1 (w1 (w2 M)) (m21 (rot k t)) /\ tr c 1 (w2 (w2 M)) (m22 (rot k t))).
Proof.
  intros U He HM. pose proof uu_pos as UP. pose proof uu_val' as UV.
  destruct (SO3_entries (rot k t) (rot_SO3 k t U)) as (B00 & B01 & B02 & B10 & B11 & B12 & B20 & B21 & B22).
  set (c := e / uu). assert (CU : c * uu = e) by (unfold c; field; lra). exists c. split; [exact CU|]. split.
  { split; [apply Rmult_le_pos; [lra | left; apply Rinv_0_lt_compat; lra]|]. apply Rmult_le_reg_r with uu; [lra|]. rewrite CU. assert (bpow radix2 (-28) = 33554432 * uu) as <- by (rewrite UV; cbn; lra). apply He. }
  destruct HM as ((N00 & N01 & N02) & (N10 & N11 & N12) & (N20 & N21 & N22)).
  assert (TR : forall x v, near e x v -> Rabs v <= 1 -> tr c 1 x v). { intros x v [F E] B. split; [exact F|]. split; [rewrite Rmult_1_r, CU; exact E | exact B]. }
  auto 15.
Qed.
(** Accuracy whenever the generic branch is taken. *)
Lemma R2rot_read : forall L bdot (M : m3 b64) k t e, In bdot b_dots -> libm_atan2_ok L (bpow radix2 (-50)) ->
  unit3 k -> 0 <= t <= PI -> bpow radix2 (-20) <= sin t -> 0 <= e <= bpow radix2 (-28) -> stored_matrix e M (rot k t) ->
  b_lt (read_sin bdot M) (b_lit 1 1000000) = false ->
  let r := g_R2rot (b64_arith L bdot) M in
  bfin (snd r) /\ Rabs (bval (snd r) - t) <= 13 * e + bpow radix2 (-44) /\
  bfin (w0 (fst r)) /\ bfin (w1 (fst r)) /\ bfin (w2 (fst r)) /\
  norm (vsub (V3 (bval (w0 (fst r))) (bval (w1 (fst r))) (bval (w2 (fst r)))) k) <= (6 * e + bpow radix2 (-45)) / sin t.
Proof.
  intros L bdot M k t e HD HL U Ht Hs He HM LT r. rewrite eight in HL. pose proof uu_val' as UV.
  destruct (stored_tr M k t e U He HM) as (c & CU & HC & (N00 & N01 & N02) & (N10 & N11 & N12) & (N20 & N21 & N22)).
  destruct M as [[x00 x01 x02] [x10 x11 x12] [x20 x21 x22]]. unfold read_sin in LT. cbn [w0 w1 w2] in *.
  destruct (R2rot_acc L bdot HD x00 x01 x02 x10 x11 x12 x20 x21 x22 k t c U Ht HC N00 N01 N02 N10 N11 N12 N20 N21 N22 Hs HL LT) as (F & E & F0 & F1 & F2 & N).
  fold r in F, E, F0, F1, F2, N. split; [exact F|].
  split. { eapply Rle_trans; [exact E|]. assert (bpow radix2 (-44) = 512 * uu) as -> by (rewrite UV; cbn; lra). lra. }
  split; [exact F0|]. split; [exact F1|]. split; [exact F2|]. eapply Rle_trans; [exact N|].
  assert (S0 : 0 < sin t) by (eapply Rlt_le_trans; [|exact Hs]; apply bpow_gt_0).
  apply Rmult_le_compat_r; [left; apply Rinv_0_lt_compat; exact S0|]. assert (bpow radix2 (-45) = 256 * uu) as -> by (rewrite UV; cbn; lra). lra.
Qed.
(** Which branch is taken. *)
Lemma read_small bdot (M : m3 b64) k t e : In bdot b_dots -> unit3 k -> 0 <= t <= PI -> 0 <= e <= bpow radix2 (-28) -> stored_matrix e M (rot k t) ->
  sin t <= bpow radix2 (-20) -> b_lt (read_sin bdot M) (b_lit 1 1000000) = true.
Proof.
  intros HD U Ht He HM Hs. destruct (stored_tr M k t e U He HM) as (c & CU & HC & (N00 & N01 & N02) & (N10 & N11 & N12) & (N20 & N21 & N22)).
  eapply r2_sin_small; eassumption.
Qed.
Lemma read_large bdot (M : m3 b64) k t e : In bdot b_dots -> unit3 k -> 0 <= t <= PI -> 0 <= e <= bpow radix2 (-28) -> stored_matrix e M (rot k t) ->
  bpow radix2 (-19) <= sin t -> b_lt (read_sin bdot M) (b_lit 1 1000000) = false.
Proof.
  intros HD U Ht He HM Hs. destruct (stored_tr M k t e U He HM) as (c & CU & HC & (N00 & N01 & N02) & (N10 & N11 & N12) & (N20 & N21 & N22)).
  eapply sin_above; try eassumption. eapply Rle_trans; [|exact Hs]. apply bpow_le. lia.
Qed.
Lemma read_cos_ok (M : m3 b64) k t e : unit3 k -> 0 <= e <= bpow radix2 (-28) -> stored_matrix e M (rot k t) ->
  bfin (read_cos M) /\ Rabs (bval (read_cos M) - cos t) <= 22 / 10 * e + 80 * uu.
Proof.
  intros U He HM. destruct (stored_tr M k t e U He HM) as (c & CU & HC & (N00 & N01 & N02) & (N10 & N11 & N12) & (N20 & N21 & N22)).
  replace (22 / 10 * e + 80 * uu) with ((22 / 10 * c + 80) * uu) by (rewrite <- CU; ring). eapply r2_cos_ok; eassumption.
Qed.

(** R2rot of a stored rotation matrix, the angle away from 0 and pi: both results are accurate. *)
Theorem C90_accuracy : forall L bdot (M : m3 b64) k t e, In bdot b_dots -> libm_atan2_ok L (bpow radix2 (-50)) ->
  unit3 k -> 0 <= t <= PI -> bpow radix2 (-19) <= sin t -> 0 <= e <= bpow radix2 (-28) -> stored_matrix e M (rot k t) ->
  let r := g_R2rot (b64_arith L bdot) M in
  bfin (snd r) /\ Rabs (bval (snd r) - t) <= 13 * e + bpow radix2 (-44) /\
  bfin (w0 (fst r)) /\ bfin (w1 (fst r)) /\ bfin (w2 (fst r)) /\
  norm (vsub (V3 (bval (w0 (fst r))) (bval (w1 (fst r))) (bval (w2 (fst r)))) k) <= (6 * e + bpow radix2 (-45)) / sin t.
Proof.
  intros L bdot M k t e HD HL U Ht Hs He HM. apply (R2rot_read L bdot M k t e HD HL U Ht); [|exact He | exact HM | exact (read_large bdot M k t e HD U Ht He HM Hs)].
  eapply Rle_trans; [|exact Hs]. apply bpow_le. lia.
Qed.

(* ---- rot is finite ---- *)
Lemma dot3_upto dot : In dot b_dots -> forall a b c x y z, upto 1 a -> upto 1 b -> upto 1 c -> upto 1 x -> upto 1 y -> upto 1 z -> upto 4 (dot [a; b; c] [x; y; z]).
Proof.
  intros HD a b c x y z Ha Hb Hc Hx Hy Hz.
  assert (W : forall v, upto 1 v -> upto 400 v) by (intros v; apply upto_weak; lia).
  assert (F : bfin (dot [a; b; c] [x; y; z])) by (apply (dot3_fin dot HD); auto).
  split; [exact F|]. destruct (dot_ok dot HD _ _ _ _ _ _ F) as [_ E]. set (r := bval (dot _ _)) in *.
  assert (P : forall u v, upto 1 u -> upto 1 v -> Rabs (bval u * bval v) <= 4).
  { intros u v [_ Hu] [_ Hv]. change (bpow radix2 1) with 2 in *. rewrite Rabs_mult. replace 4 with (2 * 2) by ring. apply Rmult_le_compat; try apply Rabs_pos; assumption. }
  pose proof (P a x Ha Hx) as P1. pose proof (P b y Hb Hy) as P2. pose proof (P c z Hc Hz) as P3. pose proof uu_pos. pose proof uu_small. pose proof ee_le_uu.
  assert (7 * uu * (Rabs (bval a * bval x) + Rabs (bval b * bval y) + Rabs (bval c * bval z)) <= 7 * uu * 12) by (apply Rmult_le_compat_l; lra).
  apply Rabs_le_inv in P1. apply Rabs_le_inv in P2. apply Rabs_le_inv in P3. apply Rabs_le_inv in E. change (bpow radix2 4) with 16. apply Rabs_le. lra.
Qed.
Lemma upto_opp n x : upto n x -> upto n (Bopp x).
Proof. intros [F B]. split; [unfold bfin; rewrite is_finite_Bopp; exact F|]. unfold bval. rewrite B2R_Bopp, Rabs_Ropp. exact B. Qed.
Lemma one_minus x : upto 1 x -> upto 2 (b_sub (b_lit 1 1) x).
Proof.
  intros [F B]. destruct one_val as [F1 V1]. change (bpow radix2 1) with 2 in B. apply Rabs_le_inv in B. destruct (sub_range _ _ F1 F) as [FS VS]; [apply rg_16; rewrite V1; lra|].
  split; [exact FS|]. rewrite VS, V1. apply rnd_abs_le; [lia|]. change (bpow radix2 2) with 4. apply Rabs_le. lra.
Qed.
Lemma rot_fin L bdot hf tf : In bdot b_dots -> upto 1 (w0 hf) -> upto 1 (w1 hf) -> upto 1 (w2 hf) -> upto 1 (m_sin L tf) -> upto 1 (m_cos L tf) ->
  mfin (A := b64_arith L bdot) bfin (g_rot (b64_arith L bdot) hf tf).
Proof.
  intros HD H0 H1 H2 HS HC. destruct hf as [x y z]. cbn [w0 w1 w2] in *.
  assert (Z : upto 1 (nzero (b64_arith L bdot))). { split; [reflexivity|]. assert (bval (nzero (b64_arith L bdot)) = 0) as -> by (vm_compute; lra). rewrite Rabs_R0. apply bpow_ge_0. }
  assert (O : upto 1 (none1 (b64_arith L bdot))). { destruct one_val as [F1 V1]. split; [exact F1|]. change (none1 (b64_arith L bdot)) with (b_lit 1 1). rewrite V1, Rabs_right by lra. change (bpow radix2 1) with 2. lra. }
  pose proof (upto_opp _ _ H0) as N0. pose proof (upto_opp _ _ H1) as N1. pose proof (upto_opp _ _ H2) as N2.
  pose proof (one_minus _ HC) as C1.
  assert (G : forall i h v, upto 1 i -> upto 1 h -> upto 4 v -> bfin (b_add (b_add i (b_mul (m_sin L tf) h)) (b_mul (b_sub (b_lit 1 1) (m_cos L tf)) v))).
  { intros i h v Hi Hh Hv. pose proof (upto_mul 1 1 _ _ ltac:(lia) HS Hh) as M1. pose proof (upto_mul 2 4 _ _ ltac:(lia) C1 Hv) as M2. cbn [Z.add Pos.add] in M1, M2.
    pose proof (upto_add 2 _ _ ltac:(lia) (upto_weak 1 2 _ ltac:(lia) Hi) M1) as A1. cbn [Z.add Pos.add] in A1.
    pose proof (upto_add 6 _ _ ltac:(lia) (upto_weak 3 6 _ ltac:(lia) A1) M2) as A2. apply A2. }
  assert (D : forall a b c u v w, upto 1 a -> upto 1 b -> upto 1 c -> upto 1 u -> upto 1 v -> upto 1 w -> upto 4 (bdot [a; b; c] [u; v; w])) by (apply dot3_upto; exact HD).
  unfold mfin, vfin, g_rot, v3zip, g_mm, v3map, g_hat, g_I3, v3cols, v3map. cbn [w0 w1 w2].
  repeat split; (apply G; [assumption | assumption | apply D; assumption]).
Qed.

(** Axis and angle given to rot come back. *)
Theorem C90_roundtrip : forall L bdot (hf : v3 b64) k tf d, In bdot b_dots -> libm_ok L (bpow radix2 (-52)) -> libm_atan2_ok L (bpow radix2 (-50)) ->
  bfin (m_sin L tf) -> bfin (m_cos L tf) -> bfin (w0 hf) -> bfin (w1 hf) -> bfin (w2 hf) -> unit3 k ->
  norm (vsub (V3 (bval (w0 hf)) (bval (w1 hf)) (bval (w2 hf))) k) <= d -> 0 <= d <= bpow radix2 (-34) ->
  0 <= bval tf <= PI -> bpow radix2 (-19) <= sin (bval tf) ->
  let r := g_R2rot (b64_arith L bdot) (g_rot (b64_arith L bdot) hf tf) in
  bfin (snd r) /\ Rabs (bval (snd r) - bval tf) <= 600 * d + bpow radix2 (-40) /\
  bfin (w0 (fst r)) /\ bfin (w1 (fst r)) /\ bfin (w2 (fst r)) /\
  norm (vsub (V3 (bval (w0 (fst r))) (bval (w1 (fst r))) (bval (w2 (fst r)))) k) <= (300 * d + bpow radix2 (-41)) / sin (bval tf).
Proof.
  intros L bdot hf k tf d HD HL HA FS FC F0 F1 F2 U N Hd Ht Hs r. pose proof uu_pos as UP. pose proof uu_val' as UV. pose proof ee_le_uu as EU. pose proof ee_pos as EP.
  assert (W52 : bpow radix2 (-52) = 2 * uu) by (rewrite UV; cbn; lra).
  assert (D34 : bpow radix2 (-34) = 524288 * uu) by (rewrite UV; cbn; lra). rewrite D34 in Hd.
  assert (UB : forall x v, bfin x -> Rabs (bval x - v) <= 1 / 10 -> Rabs v <= 1 -> upto 1 x).
  { intros x v F E B. split; [exact F|]. change (bpow radix2 1) with 2. apply Rabs_le_inv in E. apply Rabs_le_inv in B. apply Rabs_le. lra. }
  destruct (entry_le k) as (K0 & K1 & K2). rewrite (norm_unit k U) in *. destruct (entry_le (vsub (V3 (bval (w0 hf)) (bval (w1 hf)) (bval (w2 hf))) k)) as (X0 & X1 & X2). cbn [vx vy vz vsub] in X0, X1, X2.
  destruct (proj1 HL tf FS) as [FT ES]. destruct (proj2 HL tf FC) as [_ EC]. rewrite W52 in ES, EC. pose proof (SIN_bound (bval tf)) as SB. pose proof (COS_bound (bval tf)) as CB.
  assert (MF : mfin (A := b64_arith L bdot) bfin (g_rot (b64_arith L bdot) hf tf)).
  { apply rot_fin; [exact HD | eapply UB; [assumption | | exact K0]; rewrite UV in Hd; lra | eapply UB; [assumption | | exact K1]; rewrite UV in Hd; lra | eapply UB; [assumption | | exact K2]; rewrite UV in Hd; lra
    | eapply (UB _ (sin (bval tf))); [assumption | rewrite UV in ES; lra | apply Rabs_le; lra] | eapply (UB _ (cos (bval tf))); [assumption | rewrite UV in EC; lra | apply Rabs_le; lra]]. }
  assert (FR : frob (msub (mval (A := b64_arith L bdot) bval (g_rot (b64_arith L bdot) hf tf)) (rot k (bval tf))) <= 45 * d + 512 * uu).
  { assert (450 * ee <= uu). { pose proof ee_tiny as ET. assert (bpow radix2 (-900) <= 1 / 1000000) by (apply Rle_trans with (bpow radix2 (-20)); [apply bpow_le; lia | cbn; lra]).
      assert (uu * bpow radix2 (-900) <= uu * (1 / 1000000)) by (apply Rmult_le_compat_l; lra). lra. }
    assert (MS : 45 * (uu + 7 * uu + 2 * uu + 10 * ee + d) <= 1 / 10) by lra.
    assert (SA : sound (b64_arith L bdot) bfin bval uu (7 * uu) (2 * uu) (10 * ee)) by (rewrite <- W52; apply b64_sound; assumption).
    assert (PP : 0 <= uu /\ 0 <= 7 * uu /\ 0 <= 2 * uu /\ 0 <= 10 * ee /\ 0 <= d) by (repeat split; lra).
    pose proof (rot_err (b64_arith L bdot) bfin bval uu (7 * uu) (2 * uu) (10 * ee) d 1 SA PP ltac:(lra) MS hf k tf MF (conj U N)) as E. lra. }
  set (e := 45 * d + 512 * uu) in *.
  assert (SM : stored_matrix e (g_rot (b64_arith L bdot) hf tf) (rot k (bval tf))).
  { assert (FE : forall B, frob B <= e -> Rabs (m00 B) <= e /\ Rabs (m01 B) <= e /\ Rabs (m02 B) <= e /\ Rabs (m10 B) <= e /\ Rabs (m11 B) <= e /\ Rabs (m12 B) <= e /\ Rabs (m20 B) <= e /\ Rabs (m21 B) <= e /\ Rabs (m22 B) <= e).
    { intros B HB. assert (G : forall x, x * x <= frob2 B -> Rabs x <= e). { intros x Hx. eapply Rle_trans; [|exact HB]. unfold frob. rewrite <- sqrt_Rsqr_abs. apply sqrt_le_1_alt. exact Hx. }
      destruct B as [b1 b2 b3 b4 b5 b6 b7 b8 b9]. unfold frob2 in G. cbn [m00 m01 m02 m10 m11 m12 m20 m21 m22] in *.
      pose proof (Rle_0_sqr b1). pose proof (Rle_0_sqr b2). pose proof (Rle_0_sqr b3). pose proof (Rle_0_sqr b4). pose proof (Rle_0_sqr b5). pose proof (Rle_0_sqr b6). pose proof (Rle_0_sqr b7). pose proof (Rle_0_sqr b8). pose proof (Rle_0_sqr b9). unfold Rsqr in *.
      repeat split; apply G; lra. }
    destruct (FE _ FR) as (E00 & E01 & E02 & E10 & E11 & E12 & E20 & E21 & E22).
    destruct MF as ((M00 & M01 & M02) & (M10 & M11 & M12) & (M20 & M21 & M22)).
    unfold mval, msub in *. cbn [m00 m01 m02 m10 m11 m12 m20 m21 m22] in *.
    split; [|split]; (split; [|split]); split; assumption. }
  assert (HE : 0 <= e <= bpow radix2 (-28)). { assert (bpow radix2 (-28) = 33554432 * uu) as -> by (rewrite UV; cbn; lra). unfold e. lra. }
  destruct (C90_accuracy L bdot (g_rot (b64_arith L bdot) hf tf) k (bval tf) e HD HA U Ht Hs HE SM) as (R0 & R1 & R2 & R3 & R4 & R5). fold r in R0, R1, R2, R3, R4, R5.
  split; [exact R0|]. split.
  { eapply Rle_trans; [exact R1|]. unfold e. assert (bpow radix2 (-44) = 512 * uu) as -> by (rewrite UV; cbn; lra). assert (bpow radix2 (-40) = 8192 * uu) as -> by (rewrite UV; cbn; lra). lra. }
  split; [exact R2|]. split; [exact R3|]. split; [exact R4|]. eapply Rle_trans; [exact R5|].
  assert (S0 : 0 < sin (bval tf)) by (eapply Rlt_le_trans; [|exact Hs]; apply bpow_gt_0).
  apply Rmult_le_compat_r; [left; apply Rinv_0_lt_compat; exact S0|]. unfold e. assert (bpow radix2 (-45) = 256 * uu) as -> by (rewrite UV; cbn; lra). assert (bpow radix2 (-41) = 4096 * uu) as -> by (rewrite UV; cbn; lra). lra.
Qed.

(* ---- examples ---- *)
Lemma arc_atan2_ok : libm_atan2_ok arc_libm (bpow radix2 (-50)).
Proof.
  rewrite eight. pose proof pi_hi as PH. intros y x Fy Fx _. cbn [m_atan2 arc_libm]. unfold bfin in *. rewrite Fy, Fx. cbn [andb]. apply near_err.
  pose proof (atan2_range (bval y) (bval x)). apply Rabs_le. lra.
Qed.
Lemma arc_sincos_ok : libm_ok arc_libm (bpow radix2 (-52)).
Proof. exact exact_libm_ok. Qed.
(** a quarter turn about the last axis *)
Definition quarter : m3 b64 :=
  W3 (W3 (b_ofZ 0) (b_ofZ (-1)) (b_ofZ 0)) (W3 (b_ofZ 1) (b_ofZ 0) (b_ofZ 0)) (W3 (b_ofZ 0) (b_ofZ 0) (b_ofZ 1)).
Example C90_accuracy_ex :
  libm_atan2_ok arc_libm (bpow radix2 (-50)) /\ unit3 (V3 0 0 1) /\ 0 <= PI / 2 <= PI /\ bpow radix2 (-19) <= sin (PI / 2) /\
  stored_matrix 0 quarter (rot (V3 0 0 1) (PI / 2)) /\
  forall bdot, In bdot b_dots -> Rabs (bval (snd (g_R2rot (b64_arith arc_libm bdot) quarter)) - PI / 2) <= bpow radix2 (-44).
Proof.
  assert (U : unit3 (V3 0 0 1)) by (unfold unit3, LinAlg.dot; cbn; ring). pose proof PI_RGT_0 as P.
  assert (S : bpow radix2 (-19) <= sin (PI / 2)) by (rewrite sin_PI2; apply Rle_trans with (bpow radix2 0); [apply bpow_le; lia | cbn; lra]).
  assert (M : stored_matrix 0 quarter (rot (V3 0 0 1) (PI / 2))).
  { assert (V : forall z v, bfin (b_ofZ z) -> bval (b_ofZ z) = v -> near 0 (b_ofZ z) v) by (intros z v F <-; split; [exact F | rewrite Rminus_diag_eq, Rabs_R0; lra]).
    assert (Z0 : bval (b_ofZ 0) = 0) by (vm_compute; lra). assert (Z1 : bval (b_ofZ 1) = 1) by (vm_compute; lra). assert (Z2 : bval (b_ofZ (-1)) = -1) by (vm_compute; lra).
    unfold stored_matrix, quarter, rot, madd, mscale, I3, hat, mmul. cbn [w0 w1 w2 m00 m01 m02 m10 m11 m12 m20 m21 m22 vx vy vz]. rewrite sin_PI2, cos_PI2.
    split; [|split]; (split; [|split]); (apply V; [reflexivity | first [rewrite Z0; ring | rewrite Z1; ring | rewrite Z2; ring]]). }
  split; [apply arc_atan2_ok|]. split; [exact U|]. split; [lra|]. split; [exact S|]. split; [exact M|].
  intros bdot HD. destruct (C90_accuracy arc_libm bdot quarter (V3 0 0 1) (PI / 2) 0 HD arc_atan2_ok U ltac:(lra) S (conj (Rle_refl 0) (bpow_ge_0 _ _)) M) as (_ & E & _).
  lra.
Qed.
(** one radian about the stored form of (0.6, 0, 0.8) *)
Example C90_roundtrip_ex : forall bdot, In bdot b_dots ->
  let r := g_R2rot (b64_arith arc_libm bdot) (g_rot (b64_arith arc_libm bdot) (W3 (b_lit 3 5) (b_ofZ 0) (b_lit 4 5)) (b_ofZ 1)) in
  Rabs (bval (snd r) - 1) <= bpow radix2 (-39) /\ norm (vsub (V3 (bval (w0 (fst r))) (bval (w1 (fst r))) (bval (w2 (fst r)))) (V3 (3 / 5) 0 (4 / 5))) <= bpow radix2 (-39).
Proof.
  intros bdot HD. set (hf := W3 (b_lit 3 5) (b_ofZ 0) (b_lit 4 5)).
  assert (O : bval (b_ofZ 1) = 1) by (vm_compute; lra). pose proof PI2_1 as P1. pose proof PI_RGT_0 as P0. pose proof pi_hi as PH.
  assert (S : 1 / 2 <= sin 1). { rewrite <- sin_PI6. left. apply sin_increasing_1; lra. }
  assert (S1 : sin 1 <= 1) by apply SIN_bound.
  assert (U : unit3 (V3 (3 / 5) 0 (4 / 5))) by (unfold unit3, LinAlg.dot; cbn [vx vy vz]; field).
  assert (N : norm (vsub (V3 (bval (w0 hf)) (bval (w1 hf)) (bval (w2 hf))) (V3 (3 / 5) 0 (4 / 5))) <= bpow radix2 (-52)).
  { assert (X0 : Rabs (bval (b_lit 3 5) - 3 / 5) <= bpow radix2 (-53)) by (apply Rabs_le; vm_compute; lra).
    assert (X2 : Rabs (bval (b_lit 4 5) - 4 / 5) <= bpow radix2 (-53)) by (apply Rabs_le; vm_compute; lra).
    assert (X1 : bval (b_ofZ 0) = 0) by (vm_compute; lra).
    unfold norm, norm2, LinAlg.dot, vsub, hf. cbn [w0 w1 w2 vx vy vz]. rewrite X1. set (a := bval (b_lit 3 5) - 3 / 5) in *. set (b := bval (b_lit 4 5) - 4 / 5) in *.
    assert (B : bpow radix2 (-52) = 2 * bpow radix2 (-53)) by (cbn; lra). rewrite B. pose proof (bpow_ge_0 radix2 (-53)) as G. set (u := bpow radix2 (-53)) in *.
    rewrite <- (sqrt_square (2 * u)) by lra. apply sqrt_le_1_alt. apply Rabs_le_inv in X0. apply Rabs_le_inv in X2.
    assert (a * a <= u * u) by nra. assert (b * b <= u * u) by nra. nra. }
  assert (HS : bpow radix2 (-19) <= sin (bval (b_ofZ 1))). { rewrite O. apply Rle_trans with (bpow radix2 (-1)); [apply bpow_le; lia | cbn; lra]. }
  assert (FB : forall x, Rabs x <= 1 -> bfin (b_near x)) by (intros x Hx; apply b_near_ok; exact Hx).
  assert (F1 : bfin (m_sin arc_libm (b_ofZ 1))). { change (m_sin arc_libm (b_ofZ 1)) with (b_near (sin (bval (b_ofZ 1)))). apply FB. rewrite O. apply Rabs_le. lra. }
  assert (F2 : bfin (m_cos arc_libm (b_ofZ 1))). { change (m_cos arc_libm (b_ofZ 1)) with (b_near (cos (bval (b_ofZ 1)))). apply FB. rewrite O. apply Rabs_le. pose proof (COS_bound 1). lra. }
  destruct (C90_roundtrip arc_libm bdot hf (V3 (3 / 5) 0 (4 / 5)) (b_ofZ 1) (bpow radix2 (-52)) HD arc_sincos_ok arc_atan2_ok F1 F2 eq_refl eq_refl eq_refl U N
    (conj (bpow_ge_0 _ _) (bpow_le radix2 (-52) (-34) ltac:(lia))) ltac:(rewrite O; lra) HS) as (_ & E & _ & _ & _ & N1).
  rewrite O in E, N1. assert (B52 : bpow radix2 (-52) = bpow radix2 (-41) / 2048) by (cbn; lra). assert (B40 : bpow radix2 (-40) = 2 * bpow radix2 (-41)) by (cbn; lra). assert (B39 : bpow radix2 (-39) = 4 * bpow radix2 (-41)) by (cbn; lra).
  pose proof (bpow_gt_0 radix2 (-41)) as G. set (b := bpow radix2 (-41)) in *. rewrite B52 in E, N1. rewrite B40 in E. rewrite B39.
  split; [cbv zeta; eapply Rle_trans; [exact E|]; lra|].
  eapply Rle_trans; [exact N1|]. apply Rmult_le_reg_r with (sin 1); [lra|]. unfold Rdiv at 1. rewrite Rmult_assoc, Rinv_l, Rmult_1_r by lra.
  assert (4 * b * (1 / 2) <= 4 * b * sin 1) by (apply Rmult_le_compat_l; lra). lra.
Qed.
Print Assumptions C90_accuracy.
Print Assumptions C90_roundtrip.
