(** np.isclose in binary64: the answer is that of the exact test up to rounding. *)
From Coq Require Import Reals ZArith List Bool Lra Lia Psatz.
From Flocq Require Import Core.Core IEEE754.BinarySingleNaN.
From Flocq Require Plus_error.
From Verif Require Import LinAlg RealAux Py FactsReal ModelRot ModelFloat ModelFloat2 ModelFloat11 ModelFloat13 SpecRound FactsB64 FactsExact FactsTrack FactsPath64 SpecCompare64.
Import ListNotations.
Open Scope R_scope.

Lemma le_iff x y : bfin x -> bfin y -> (b_le x y = true <-> bval x <= bval y).
Proof.
  intros Fx Fy. unfold b_le, bval. rewrite Bcompare_correct by assumption. destruct (Rcompare_spec (B2R x) (B2R y)); split; intros; try reflexivity; try lra; discriminate.
Qed.
Lemma sub_e x y : bfin x -> bfin y -> Rabs (bval x - bval y) <= bpow radix2 1000 -> bfin (b_sub x y) /\ exists e, Rabs e <= uu /\ bval (b_sub x y) = (bval x - bval y) * (1 + e).
Proof.
  intros Fx Fy B. pose proof uu_pos as U. pose proof uu_small as US. destruct (sub_range x y Fx Fy (in_range _ B)) as [F V]. split; [exact F|].
  destruct (Plus_error.FLT_plus_error_N_ex radix2 (-1074) 53 (fun n => negb (Z.even n)) (bval x) (- bval y) (fmt_bval x) (generic_format_opp _ _ _ (fmt_bval y))) as (e & E & R).
  exists e. split; [|rewrite V; exact R].
  eapply Rle_trans; [exact E|]. unfold Relative.u_ro. replace (/ 2 * bpow radix2 (- (53) + 1)) with uu by (unfold uu; change (/ 2) with (bpow radix2 (-1)); rewrite <- bpow_plus; reflexivity).
  apply Rmult_le_reg_r with (1 + uu); [lra|]. unfold Rdiv. rewrite Rmult_assoc, Rinv_l by lra. nra.
Qed.
Lemma ee_uu : ee <= 1 / 1000 * (uu * bpow radix2 (-900)).
Proof.
  unfold ee, uu. rewrite <- bpow_plus. apply Rle_trans with (bpow radix2 (-10) * bpow radix2 (-53 + -900)); [rewrite <- bpow_plus; apply bpow_le; lia|]. apply Rmult_le_compat_r; [apply bpow_ge_0|cbn; lra].
Qed.

(** the bound computed by np.isclose *)
Lemma bound_e rt at_ y rho a : bfin rt -> bfin at_ -> bfin y -> 0 <= rho <= 1 -> Rabs (bval rt - rho) <= uu * rho -> bpow radix2 (-900) <= a <= bpow radix2 900 -> Rabs (bval at_ - a) <= uu * a -> Rabs (bval y) <= bpow radix2 900 ->
  let s := b_add at_ (b_mul rt (Babs y)) in bfin s /\ Rabs (bval s - (a + rho * Rabs (bval y))) <= 51 / 10 * uu * (a + rho * Rabs (bval y)).
Proof.
  intros Fr Fa Fy HR ER HA EA BY. cbv zeta. pose proof uu_pos as U. pose proof uu_small as US. pose proof ee_uu as EE. pose proof (bpow_gt_0 radix2 (-900)) as P9.
  assert (FB : bfin (Babs y)) by (unfold bfin in *; rewrite is_finite_Babs; exact Fy). assert (VB : bval (Babs y) = Rabs (bval y)) by (unfold bval; apply B2R_Babs).
  pose proof (Rabs_pos (bval y)) as Y0. set (Y := Rabs (bval y)) in *. apply Rabs_le_inv in ER, EA.
  assert (UR : uu * rho <= 1 / 1000 * rho) by (apply Rmult_le_compat_r; lra). assert (UA : uu * a <= 1 / 1000 * a) by (apply Rmult_le_compat_r; lra).
  assert (K : 2 * bpow radix2 900 + 2 * bpow radix2 900 <= bpow radix2 1000). { apply Rle_trans with (bpow radix2 2 * bpow radix2 900); [change (bpow radix2 2) with 4; lra|]. rewrite <- bpow_plus. apply bpow_le. lia. }
  assert (RY : 0 <= rho * Y) by (apply Rmult_le_pos; lra). assert (RYb : rho * Y <= Y) by (rewrite <- (Rmult_1_l Y) at 2; apply Rmult_le_compat_r; lra).
  assert (M1 : Rabs (bval rt * Y - rho * Y) <= uu * (rho * Y)).
  { replace (bval rt * Y - rho * Y) with ((bval rt - rho) * Y) by ring. rewrite Rabs_mult, (Rabs_right Y) by lra. rewrite <- Rmult_assoc. apply Rmult_le_compat_r; [lra|]. apply Rabs_le. lra. }
  apply Rabs_le_inv in M1. assert (URY : uu * (rho * Y) <= 1 / 1000 * (rho * Y)) by (apply Rmult_le_compat_r; lra).
  assert (B1 : Rabs (bval rt * bval (Babs y)) <= bpow radix2 1000) by (rewrite VB; apply Rabs_le; lra).
  destruct (mul_range rt (Babs y) Fr FB (in_range _ B1)) as [Fm Vm]. pose proof (rnd_err (bval rt * bval (Babs y))) as EM. rewrite <- Vm, VB in EM. rewrite (Rabs_right (bval rt * Y)) in EM by lra.
  set (m := b_mul rt (Babs y)) in *. apply Rabs_le_inv in EM.
  assert (M2 : uu * (bval rt * Y) <= uu * (1001 / 1000 * (rho * Y))) by (apply Rmult_le_compat_l; lra).
  assert (E9 : uu * bpow radix2 (-900) <= uu * a) by (apply Rmult_le_compat_l; lra).
  assert (B2 : Rabs (bval at_ + bval m) <= bpow radix2 1000) by (apply Rabs_le; lra).
  destruct (add_range at_ m Fa Fm (in_range _ B2)) as [Fs Vs]. split; [exact Fs|]. pose proof (rnd_err (bval at_ + bval m)) as ES. rewrite <- Vs in ES. rewrite (Rabs_right (bval at_ + bval m)) in ES by lra.
  assert (M3 : uu * (bval at_ + bval m) <= uu * (101 / 100 * (a + rho * Y))) by (apply Rmult_le_compat_l; lra).
  apply Rabs_le_inv in ES. apply Rabs_le. lra.
Qed.

Lemma bound_fin rt at_ y : bfin rt -> bfin at_ -> bfin y -> Rabs (bval rt) <= bpow radix2 (-10) -> Rabs (bval at_) <= bpow radix2 900 -> bfin (b_add at_ (b_mul rt (Babs y))).
Proof.
  intros Fr Fa Fy Br Ba. assert (FB : bfin (Babs y)) by (unfold bfin in *; rewrite is_finite_Babs; exact Fy).
  assert (BY : Rabs (bval (Babs y)) <= bpow radix2 1024). { unfold bval. rewrite B2R_Babs, Rabs_Rabsolu. left. apply abs_B2R_lt_emax. }
  assert (BP : Rabs (bval rt * bval (Babs y)) <= bpow radix2 1014). { rewrite Rabs_mult. change 1014%Z with (-10 + 1024)%Z. rewrite bpow_plus. apply Rmult_le_compat; try apply Rabs_pos; assumption. }
  assert (RP : Rabs (rnd (bval rt * bval (Babs y))) <= bpow radix2 1014) by (apply rnd_abs_le; [lia|exact BP]).
  destruct (mul_range rt (Babs y) Fr FB) as [Fm Vm]. { apply Rlt_bool_true. eapply Rle_lt_trans; [exact RP|]. apply bpow_lt. lia. }
  apply add_range; try assumption. apply Rlt_bool_true. apply Rle_lt_trans with (bpow radix2 1015); [|apply bpow_lt; lia]. apply rnd_abs_le; [lia|]. rewrite Vm.
  eapply Rle_trans; [apply Rabs_triang|]. assert (bpow radix2 900 <= bpow radix2 1014) by (apply bpow_le; lia). change 1015%Z with (1 + 1014)%Z. rewrite bpow_plus. change (bpow radix2 1) with 2. lra.
Qed.
Lemma inf_le s z : bfin z -> b_le (B754_infinity s) z = s.
Proof. intros F. destruct z; try discriminate F; destruct s; reflexivity. Qed.
Lemma le_inf s z : bfin z -> b_le z (B754_infinity s) = negb s.
Proof. intros F. destruct z; try discriminate F; destruct s; reflexivity. Qed.
Lemma nan_le z : b_le B754_nan z = false /\ b_le z B754_nan = false.
Proof. destruct z; split; reflexivity. Qed.
Lemma inf_sub s z : bfin z -> Babs (b_sub (B754_infinity s) z) = B754_infinity false.
Proof. intros F. destruct z; try discriminate F; destruct s; reflexivity. Qed.

Section Close.
Context (L : libm) (bdot : list b64 -> list b64 -> b64).
Notation A := (b64_arith L bdot).
Lemma self_zero y : bfin y -> g_zero A (nsub A y y) = true.
Proof.
  intros F. destruct (sub_e y y F F) as (F0 & e & _ & V). { replace (bval y - bval y) with 0 by ring. rewrite Rabs_R0. apply bpow_ge_0. }
  change (nsub A y y) with (b_sub y y). unfold g_zero. change (nle A) with b_le. assert (Z : bfin (nzero A) /\ bval (nzero A) = 0) by (split; reflexivity). destruct Z as [FZ VZ].
  rewrite andb_true_iff, !le_iff by assumption. rewrite V, VZ. lra.
Qed.
Lemma near_iff rt at_ x y rho a : bfin rt -> bfin at_ -> bfin x -> bfin y -> 0 <= rho <= 1 -> Rabs (bval rt - rho) <= uu * rho -> bpow radix2 (-900) <= a <= bpow radix2 900 -> Rabs (bval at_ - a) <= uu * a ->
  Rabs (bval y) <= bpow radix2 900 -> Rabs (bval x - bval y) <= bpow radix2 1000 ->
  (g_near A rt at_ x y = true -> Rabs (bval x - bval y) <= (1 + bpow radix2 (-50)) * (a + rho * Rabs (bval y))) /\
  (Rabs (bval x - bval y) <= (1 - bpow radix2 (-50)) * (a + rho * Rabs (bval y)) -> g_near A rt at_ x y = true).
Proof.
  intros Fr Fa Fx Fy HR ER HA EA BY BD. pose proof uu_pos as U. pose proof uu_small as US. destruct (bound_e rt at_ y rho a Fr Fa Fy HR ER HA EA BY) as [Fs Es]. cbv zeta in Fs, Es.
  destruct (sub_e x y Fx Fy BD) as (Fd & e & He & Vd). assert (FB : bfin (Babs (b_sub x y))) by (unfold bfin in *; rewrite is_finite_Babs; exact Fd).
  assert (VB : bval (Babs (b_sub x y)) = Rabs (bval x - bval y) * (1 + e)).
  { unfold bval at 1. rewrite B2R_Babs. fold (bval (b_sub x y)). rewrite Vd, Rabs_mult, (Rabs_right (1 + e)); [reflexivity|]. apply Rabs_le_inv in He. lra. }
  assert (B50 : bpow radix2 (-50) = 8 * uu) by (unfold uu; change (-50)%Z with (3 + -53)%Z; rewrite bpow_plus; reflexivity). rewrite B50.
  pose proof (Rabs_pos (bval x - bval y)) as D0. pose proof (Rabs_pos (bval y)) as Y0. set (D := Rabs (bval x - bval y)) in *. pose proof (bpow_gt_0 radix2 (-900)) as P9. assert (RY0 : 0 <= rho * Rabs (bval y)) by (apply Rmult_le_pos; lra).
  set (B := a + rho * Rabs (bval y)) in *. assert (B0 : 0 < B) by (unfold B; lra).
  apply Rabs_le_inv in He, Es. assert (De : - uu * D <= D * e <= uu * D) by (split; nra).
  assert (UB : 0 < uu * B) by (apply Rmult_lt_0_compat; lra). assert (UUB : uu * (uu * B) <= 1 / 1000 * (uu * B)) by (apply Rmult_le_compat_r; lra).
  unfold g_near. change (nle A) with b_le. change (nsub A x y) with (b_sub x y). change (nabs A) with (@Babs 53 1024). change (nadd A) with b_add. change (nmul A) with b_mul.
  rewrite orb_true_iff, !andb_true_iff, self_zero, !le_iff, VB by assumption. split.
  - intros [[H _]|[H1 H2]].
    + assert (D * (1 - uu) <= B + 51 / 10 * uu * B) by lra. destruct (Rle_lt_dec D ((1 + 8 * uu) * B)) as [?|N]; [assumption|]. assert ((1 + 8 * uu) * B * (1 - uu) < D * (1 - uu)) by (apply Rmult_lt_compat_r; lra). lra.
    + replace D with 0; [|unfold D; replace (bval x - bval y) with 0 by lra; rewrite Rabs_R0; reflexivity]. apply Rmult_le_pos; lra.
  - intros H. left. split; [|reflexivity]. assert (uu * D <= uu * ((1 - 8 * uu) * B)) by (apply Rmult_le_compat_l; lra). assert (0 <= uu * (uu * B)) by (apply Rmult_le_pos; lra). lra.
Qed.
Lemma near_self rt at_ x : bfin rt -> bfin at_ -> (g_near A rt at_ x x = true <-> is_nan x = false).
Proof.
  intros Fr Fa. unfold g_near, g_zero. change (nle A) with b_le. split.
  - intros H. destruct x; try reflexivity. exfalso. revert H. unfold b_le at 4 5. cbn [nsub b64_arith]. rewrite !orb_true_iff, !andb_true_iff. intros [[_ [H _]]|[H _]]; [|discriminate H]. unfold b_le in H. cbn in H. discriminate H.
  - intros N. apply orb_true_iff. right. apply andb_true_iff. assert (b_le x x = true); [|tauto]. destruct x; try discriminate N.
    + reflexivity.
    + destruct s; reflexivity.
    + apply le_iff; [reflexivity|reflexivity|lra].
Qed.
(** an entry that is infinite or NaN *)
Lemma near_special rt at_ x y : bfin rt -> bfin at_ -> Rabs (bval rt) <= bpow radix2 (-10) -> Rabs (bval at_) <= bpow radix2 900 ->
  g_near A rt at_ x y = true -> (bfin x /\ bfin y) \/ (x = y /\ is_nan x = false).
Proof.
  intros Fr Fa Br Ba. unfold g_near, g_zero. change (nle A) with b_le. change (nsub A) with b_sub. change (nabs A) with (@Babs 53 1024). change (nadd A) with b_add. change (nmul A) with b_mul.
  rewrite orb_true_iff, !andb_true_iff. intros H. destruct (is_finite y) eqn:Fy.
  - destruct (is_finite x) eqn:Fx; [left; split; assumption|]. exfalso. pose proof (bound_fin rt at_ y Fr Fa Fy Br Ba) as FS. destruct x as [|s| |]; try discriminate Fx.
    + rewrite inf_sub, !inf_le, le_inf in H by assumption. destruct H as [[H _]|[H1 H2]]; [discriminate H|]. destruct s; discriminate.
    + destruct H as [[H _]|[H _]]; [change (b_sub B754_nan y) with (B754_nan : b64) in H; cbn [Babs] in H|]; rewrite (proj1 (nan_le _)) in H; discriminate H.
  - assert (Z : b_sub y y = B754_nan) by (destruct y as [|[|]| |]; try discriminate Fy; reflexivity). rewrite Z in H. destruct H as [[_ [H _]]|[H1 H2]]; [rewrite (proj1 (nan_le _)) in H; discriminate H|].
    destruct y as [|s| |]; try discriminate Fy; [|rewrite (proj2 (nan_le _)) in H1; discriminate H1]. right.
    destruct (is_finite x) eqn:Fx; [rewrite inf_le in H2 by assumption; rewrite le_inf in H1 by assumption; destruct s; discriminate|]. destruct x as [|s'| |]; try discriminate Fx; [|rewrite (proj1 (nan_le _)) in H1; discriminate H1].
    destruct s, s'; try discriminate; split; reflexivity.
Qed.
End Close.
