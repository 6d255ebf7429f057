(** The distance of a computed vector of joint values to last_joints, as np.linalg.norm computes it. *)
From Coq Require Import Reals ZArith List Bool Lra Lia Psatz.
From Flocq Require Import Core.Core IEEE754.BinarySingleNaN.
From Flocq Require Plus_error.
From Coq Require Import Permutation.
From Verif Require Import RealAux Py ModelRobot ModelInvkin ModelFloat ModelFloat3 ModelFloat11 FactsB64 FactsExact FactsTrack FactsSumsq SpecRobot64 SpecNear64.
Import ListNotations.
Open Scope R_scope.

(* ---- the length of a list of numbers up to 4096; as in FactsSumsq.v, with other bounds ---- *)
Definition mid (x : b64) : Prop := bfin x /\ Rabs (bval x) <= 4096.
Definition mstep_ok (f : b64 -> b64 * b64 -> b64) : Prop := forall s x, bfin s -> 0 <= bval s <= 1000000000 -> mid x ->
  bfin (f s (x, x)) /\ 0 <= bval (f s (x, x)) /\ Rabs (bval (f s (x, x)) - (bval s + bval x * bval x)) <= 21 / 10 * uu * (bval s + bval x * bval x) + 3 * ee.
Lemma sq_mid x : mid x -> 0 <= bval x * bval x <= 16777216.
Proof. intros [_ H]. apply Rabs_le_inv in H. nra. Qed.
Lemma rg_mid v : -2000000000 <= v <= 2000000000 -> Rlt_bool (Rabs (rnd v)) (bpow radix2 1024) = true.
Proof. intros H. apply in_range. apply Rle_trans with (bpow radix2 31); [apply Rabs_le; cbn; lra | apply bpow_le; lia]. Qed.
Lemma mstep_seq : mstep_ok (fun s p => b_add s (b_mul (fst p) (snd p))).
Proof.
  intros s x Fs Bs Sx. pose proof (sq_mid x Sx) as Q. destruct Sx as [Fx Bx]. cbn [fst snd].
  pose proof uu_pos as U. pose proof uu_small as US. pose proof ee_le_uu as EU. pose proof ee_pos as EP.
  destruct (mul_range x x Fx Fx) as [Fm Vm]; [apply rg_mid; lra|].
  pose proof (rnd_err (bval x * bval x)) as E1. rewrite <- Vm in E1. rewrite (Rabs_right (bval x * bval x)) in E1 by lra.
  assert (M0 : 0 <= bval (b_mul x x)) by (rewrite Vm; apply rnd_nonneg; lra).
  assert (U16 : uu * (bval x * bval x) <= 1 / 100 * (bval x * bval x)) by (apply Rmult_le_compat_r; lra).
  apply Rabs_le_inv in E1.
  destruct (add_range s (b_mul x x) Fs Fm) as [Fa Va]; [apply rg_mid; lra|].
  split; [exact Fa|]. split; [rewrite Va; apply rnd_nonneg; lra|].
  pose proof (rnd_err (bval s + bval (b_mul x x))) as E2. rewrite <- Va in E2. rewrite (Rabs_right (bval s + bval (b_mul x x))) in E2 by lra.
  assert (U3 : uu * (bval s + bval (b_mul x x)) <= uu * (bval s + 101 / 100 * (bval x * bval x) + ee)) by (apply Rmult_le_compat_l; lra).
  assert (uu * ee <= 1 / 100 * ee) by (apply Rmult_le_compat_r; lra). assert (0 <= uu * bval s) by (apply Rmult_le_pos; lra).
  apply Rabs_le_inv in E2. apply Rabs_le. lra.
Qed.
Lemma mstep_fma : mstep_ok (fun s p => b_fma (fst p) (snd p) s).
Proof.
  intros s x Fs Bs Sx. pose proof (sq_mid x Sx) as Q. destruct Sx as [Fx Bx]. cbn [fst snd].
  pose proof uu_pos as U. pose proof ee_pos as EP.
  destruct (fma_range x x s Fx Fx Fs) as [Fa Va]; [apply rg_mid; lra|].
  split; [exact Fa|]. split; [rewrite Va; apply rnd_nonneg; lra|].
  pose proof (rnd_err (bval x * bval x + bval s)) as E2. rewrite <- Va in E2. rewrite (Rabs_right (bval x * bval x + bval s)) in E2 by lra.
  assert (0 <= uu * bval s) by (apply Rmult_le_pos; lra). assert (0 <= uu * (bval x * bval x)) by (apply Rmult_le_pos; lra).
  apply Rabs_le_inv in E2. apply Rabs_le. lra.
Qed.
Lemma mfold_ok f : mstep_ok f -> forall l s v n, Forall mid l -> bfin s -> 0 <= bval s -> 0 <= v <= 16777216 * INR n -> (n + length l <= 20)%nat ->
  Rabs (bval s - v) <= INR n * (3 * uu * v + 4 * ee) ->
  let r := fold_left f (map (fun x => (x, x)) l) s in
  bfin r /\ 0 <= bval r /\ Rabs (bval r - (v + sumsq l)) <= INR (n + length l) * (3 * uu * (v + sumsq l) + 4 * ee).
Proof.
  intros HF. pose proof uu_pos as U. pose proof uu_small as US. pose proof ee_le_uu as EU. pose proof ee_pos as EP. pose proof uu_val' as UV.
  induction l as [|x l IH]; intros s v n HL Fs S0 HV HN E; cbn [map fold_left sumsq fold_right length].
  - rewrite Nat.add_0_r, Rplus_0_r. auto.
  - inversion HL as [|? ? Sx HL']; subst. pose proof (sq_mid x Sx) as Q. cbn [length] in HN.
    assert (N20 : 0 <= INR n <= 20). { split; [apply pos_INR|]. replace 20 with (INR 20) by (cbn; lra). apply le_INR. lia. }
    assert (N1 : INR (S n) = INR n + 1) by apply S_INR.
    assert (UVV : 0 <= uu * v) by (apply Rmult_le_pos; lra).
    assert (T0 : INR n * (3 * uu * v + 4 * ee) <= 20 * (3 * uu * v + 4 * ee)) by (apply Rmult_le_compat_r; lra).
    assert (UV2 : uu * v <= uu * 335544320) by (apply Rmult_le_compat_l; lra).
    assert (SB : bval s <= 1000000000) by (apply Rabs_le_inv in E; lra).
    destruct (HF s x Fs (conj S0 SB) Sx) as (F1 & P1 & E1).
    replace (v + (bval x * bval x + fold_right (fun x s => bval x * bval x + s) 0 l)) with (v + bval x * bval x + sumsq l) by (unfold sumsq; ring).
    replace (n + S (length l))%nat with (S n + length l)%nat by lia.
    apply (IH (f s (x, x)) (v + bval x * bval x) (S n) HL' F1 P1); [rewrite N1; lra | lia|].
    rewrite N1. set (q := bval x * bval x) in *.
    replace (bval (f s (x, x)) - (v + q)) with ((bval (f s (x, x)) - (bval s + q)) + (bval s - v)) by ring.
    eapply Rle_trans; [apply Rabs_triang|].
    assert (SV : bval s <= v + 20 * (3 * uu * v + 4 * ee)) by (apply Rabs_le_inv in E; lra).
    assert (UU : uu * uu <= 1 / 1000000 * uu) by (apply Rmult_le_compat_r; lra).
    assert (USV : uu * bval s <= uu * v + 1 / 1000 * (uu * v) + 1 / 1000 * ee).
    { assert (uu * bval s <= uu * (v + 20 * (3 * uu * v + 4 * ee))) by (apply Rmult_le_compat_l; lra).
      assert (uu * uu * v <= 1 / 1000000 * uu * v) by (apply Rmult_le_compat_r; lra). assert (uu * ee <= 1 / 1000000 * ee) by (apply Rmult_le_compat_r; lra). lra. }
    assert (0 <= uu * q) by (apply Rmult_le_pos; lra).
    assert (NQ : 0 <= INR n * (3 * uu * q)) by (apply Rmult_le_pos; [lra|]; lra).
    replace ((INR n + 1) * (3 * uu * (v + q) + 4 * ee)) with (INR n * (3 * uu * v + 4 * ee) + INR n * (3 * uu * q) + (3 * (uu * v) + 3 * (uu * q) + 4 * ee)) by ring.
    lra.
Qed.

Lemma dot_mid dot l : In dot b_dots -> (5 <= length l <= 20)%nat -> Forall mid l ->
  bfin (dot l l) /\ 0 <= bval (dot l l) /\ Rabs (bval (dot l l) - sumsq l) <= 60 * uu * sumsq l + 80 * ee.
Proof.
  intros HD Hn HS.
  assert (Z : bfin b_zero /\ 0 <= bval b_zero /\ Rabs (bval b_zero - 0) <= INR 0 * (3 * uu * 0 + 4 * ee)).
  { split; [reflexivity|]. assert (bval b_zero = 0) as -> by reflexivity. split; [lra|]. rewrite Rminus_0_r, Rabs_R0. change (INR 0) with 0. lra. }
  destruct Z as (Z1 & Z2 & Z3).
  assert (G : forall f l', mstep_ok f -> (length l' <= 20)%nat -> Forall mid l' -> let r := fold_left f (map (fun x => (x, x)) l') b_zero in
    bfin r /\ 0 <= bval r /\ Rabs (bval r - sumsq l') <= 60 * uu * sumsq l' + 80 * ee).
  { intros f l' HF HN HS' r. destruct (mfold_ok f HF l' b_zero 0 0 HS' Z1 Z2 ltac:(cbn; lra) HN Z3) as (F & P & E). split; [exact F|]. split; [exact P|].
    rewrite Rplus_0_l in E. fold r in E. eapply Rle_trans; [exact E|]. pose proof (sumsq_nonneg l') as S0. pose proof uu_pos. pose proof ee_pos.
    assert (0 <= uu * sumsq l') by (apply Rmult_le_pos; lra).
    apply Rle_trans with (20 * (3 * uu * sumsq l' + 4 * ee)); [|lra]. apply Rmult_le_compat_r; [lra|]. replace 20 with (INR 20) by (cbn; lra). apply le_INR. cbn [Nat.add]. lia. }
  assert (GR : forall f, mstep_ok f -> let r := fold_left f (rev (map (fun x => (x, x)) l)) b_zero in bfin r /\ 0 <= bval r /\ Rabs (bval r - sumsq l) <= 60 * uu * sumsq l + 80 * ee).
  { intros f HF. rewrite <- map_rev, <- (sumsq_rev l). apply G; [exact HF | rewrite rev_length; lia | apply Forall_rev, HS]. }
  assert (P : sum_pairs (combine l l) = sum_seq (combine l l) /\ sum_lanes (combine l l) = sum_seq (combine l l)).
  { destruct l as [|a [|b [|c [|d [|e l]]]]]; cbn [length] in Hn; try lia. split; reflexivity. }
  repeat (destruct HD as [<- | HD]); [| | | | | | destruct HD].
  - unfold sum_seq. rewrite combine_self. apply G; [apply mstep_seq | lia | exact HS].
  - unfold sum_fma. rewrite combine_self. apply G; [apply mstep_fma | lia | exact HS].
  - unfold sum_seq. rewrite combine_self. apply GR, mstep_seq.
  - unfold sum_fma. rewrite combine_self. apply GR, mstep_fma.
  - rewrite (proj1 P). unfold sum_seq. rewrite combine_self. apply G; [apply mstep_seq | lia | exact HS].
  - rewrite (proj2 P). unfold sum_seq. rewrite combine_self. apply G; [apply mstep_seq | lia | exact HS].
Qed.
(** the computed length *)
Lemma len_mid dot l : In dot b_dots -> (5 <= length l <= 20)%nat -> Forall mid l -> bpow radix2 (-900) <= sumsq l ->
  bfin (b_sqrt (dot l l)) /\ 0 <= bval (b_sqrt (dot l l)) /\ Rabs (bval (b_sqrt (dot l l)) - sqrt (sumsq l)) <= 63 * uu * sqrt (sumsq l).
Proof.
  intros HD Hn HS HB. destruct (dot_mid dot l HD Hn HS) as (F & P & E). set (y := bval (dot l l)) in *. set (S := sumsq l) in *.
  pose proof uu_pos as U. pose proof uu_small as US. pose proof ee_pos as EP. pose proof (bpow_gt_0 radix2 (-900)) as B0. assert (S0 : 0 < S) by lra.
  assert (EE : 80 * ee <= 1 / 100 * (uu * S)).
  { apply Rle_trans with (1 / 100 * (uu * bpow radix2 (-900))); [|apply Rmult_le_compat_l; [lra|]; apply Rmult_le_compat_l; lra].
    unfold ee, uu. rewrite <- bpow_plus. apply Rle_trans with (bpow radix2 13 * bpow radix2 (-1075)); [apply Rmult_le_compat_r; [apply bpow_ge_0 | change (bpow radix2 13) with 8192; lra]|].
    rewrite <- bpow_plus. apply Rle_trans with (bpow radix2 (-7) * bpow radix2 (-53 + -900)); [rewrite <- bpow_plus; apply bpow_le; lia|]. apply Rmult_le_compat_r; [apply bpow_ge_0 | cbn; lra]. }
  assert (SS : 0 < sqrt S) by (apply sqrt_lt_R0; exact S0). assert (S2 : sqrt S * sqrt S = S) by (apply sqrt_sqrt; lra).
  assert (D : Rabs (sqrt y - sqrt S) <= 61 * uu * sqrt S).
  { apply Rmult_le_reg_r with (sqrt S); [exact SS|]. rewrite Rmult_assoc, S2.
    apply Rle_trans with (Rabs (y - S)); [|lra].
    replace (y - S) with ((sqrt y - sqrt S) * (sqrt y + sqrt S)) by (transitivity (sqrt y * sqrt y - sqrt S * sqrt S); [ring|]; rewrite (sqrt_sqrt y) by exact P; rewrite S2; reflexivity).
    rewrite Rabs_mult. apply Rmult_le_compat_l; [apply Rabs_pos|]. pose proof (sqrt_pos y). rewrite Rabs_right; lra. }
  destruct (sqrt_range0 (dot l l) F P) as [FR VR]. split; [exact FR|]. fold y in VR. rewrite VR. split; [apply rnd_nonneg, sqrt_pos|].
  pose proof (rnd_err (sqrt y)) as RE. rewrite (Rabs_right (sqrt y)) in RE by (apply Rle_ge, sqrt_pos).
  assert (SY : sqrt y <= 2 * sqrt S) by (apply Rabs_le_inv in D; assert (61 * uu * sqrt S <= 1 * sqrt S) by (apply Rmult_le_compat_r; lra); lra).
  assert (SY2 : sqrt y <= 101 / 100 * sqrt S) by (apply Rabs_le_inv in D; assert (61 * uu * sqrt S <= 1 / 100 * sqrt S) by (apply Rmult_le_compat_r; lra); lra).
  assert (USY : uu * sqrt y <= uu * (101 / 100 * sqrt S)) by (apply Rmult_le_compat_l; lra).
  assert (E2 : ee <= 1 / 100 * (uu * sqrt S)).
  { assert (Q : bpow radix2 (-450) <= sqrt S).
    { apply Rsqr_incr_0_var; [|apply sqrt_pos]. unfold Rsqr. rewrite S2, <- bpow_plus. exact HB. }
    apply Rle_trans with (1 / 100 * (uu * bpow radix2 (-450))); [|apply Rmult_le_compat_l; [lra|]; apply Rmult_le_compat_l; lra].
    unfold ee, uu. rewrite <- bpow_plus. apply Rle_trans with (bpow radix2 (-7) * bpow radix2 (-53 + -450)); [rewrite <- bpow_plus; apply bpow_le; lia|]. apply Rmult_le_compat_r; [apply bpow_ge_0 | cbn; lra]. }
  replace (rnd (sqrt y) - sqrt S) with ((rnd (sqrt y) - sqrt y) + (sqrt y - sqrt S)) by ring. eapply Rle_trans; [apply Rabs_triang|]. lra.
Qed.

(* ---- short lengths: only the absolute error matters ---- *)
Lemma len_abs dot l : In dot b_dots -> (5 <= length l <= 20)%nat -> Forall mid l ->
  bfin (b_sqrt (dot l l)) /\ Rabs (bval (b_sqrt (dot l l)) - sqrt (sumsq l)) <= 63 * uu * sqrt (sumsq l) + bpow radix2 (-448).
Proof.
  intros HD Hn HS. pose proof uu_pos as U. pose proof uu_small as US. pose proof ee_pos as EP. pose proof (sqrt_pos (sumsq l)) as Q0. pose proof (sumsq_nonneg l) as S0. pose proof (bpow_gt_0 radix2 (-448)) as B0.
  assert (UQ : 0 <= uu * sqrt (sumsq l)) by (apply Rmult_le_pos; lra).
  destruct (Rle_or_lt (bpow radix2 (-900)) (sumsq l)) as [HB | HB].
  - destruct (len_mid dot l HD Hn HS HB) as (F & _ & E). split; [exact F|]. lra.
  - destruct (dot_mid dot l HD Hn HS) as (F & P & E). destruct (sqrt_range0 (dot l l) F P) as [FR VR]. split; [exact FR|]. rewrite VR.
    assert (N : bpow radix2 (-900) = bpow radix2 (-450) * bpow radix2 (-450)) by (rewrite <- bpow_plus; reflexivity).
    assert (E8 : bpow radix2 (-448) = 4 * bpow radix2 (-450)) by (change 4 with (bpow radix2 2); rewrite <- bpow_plus; reflexivity).
    pose proof (bpow_gt_0 radix2 (-450)) as B5. set (t := bpow radix2 (-450)) in *.
    assert (EE : ee <= 1 / 1000 * t). { unfold ee, t. apply Rle_trans with (bpow radix2 (-10) * bpow radix2 (-450)); [rewrite <- bpow_plus; apply bpow_le; lia|]. apply Rmult_le_compat_r; [apply bpow_ge_0|cbn; lra]. }
    assert (EE2 : ee <= 1 / 1000 * (t * t)). { rewrite <- N. unfold ee. apply Rle_trans with (bpow radix2 (-10) * bpow radix2 (-900)); [rewrite <- bpow_plus; apply bpow_le; lia|]. apply Rmult_le_compat_r; [apply bpow_ge_0|cbn; lra]. }
    assert (SL : sqrt (sumsq l) <= t). { rewrite <- (sqrt_square t) by lra. apply sqrt_le_1_alt. lra. }
    assert (YL : bval (dot l l) <= 2 * t * (2 * t)). { assert (60 * uu * sumsq l <= 1 * sumsq l) by (apply Rmult_le_compat_r; lra). apply Rabs_le_inv in E. nra. }
    assert (SY : sqrt (bval (dot l l)) <= 2 * t). { rewrite <- (sqrt_square (2 * t)) by lra. apply sqrt_le_1_alt. exact YL. }
    pose proof (sqrt_pos (bval (dot l l))) as Y0. pose proof (rnd_err (sqrt (bval (dot l l)))) as RE. rewrite (Rabs_right (sqrt (bval (dot l l)))) in RE by lra.
    assert (uu * sqrt (bval (dot l l)) <= 1 / 100 * sqrt (bval (dot l l))) by (apply Rmult_le_compat_r; lra).
    apply Rabs_le_inv in RE. apply Rabs_le. lra.
Qed.

(* ---- the differences ---- *)
Lemma sub_rel x y : bfin x -> bfin y -> Rabs (bval x) <= 1024 -> Rabs (bval y) <= 1024 ->
  mid (b_sub x y) /\ exists e, Rabs e <= uu /\ bval (b_sub x y) = (bval x - bval y) * (1 + e).
Proof.
  intros Fx Fy Bx By. pose proof uu_pos as U. pose proof uu_small as US. apply Rabs_le_inv in Bx, By.
  destruct (sub_range x y Fx Fy) as [F V]; [apply rg_mid; lra|].
  destruct (Plus_error.FLT_plus_error_N_ex radix2 (-1074) 53 (fun n => negb (Z.even n)) (bval x) (- bval y) (fmt_bval x) (generic_format_opp _ _ _ (fmt_bval y))) as (e & E & R).
  assert (EU : Rabs e <= uu).
  { eapply Rle_trans; [exact E|]. unfold Relative.u_ro. replace (/ 2 * bpow radix2 (- (53) + 1)) with uu by (unfold uu; change (/ 2) with (bpow radix2 (-1)); rewrite <- bpow_plus; reflexivity).
    apply Rmult_le_reg_r with (1 + uu); [lra|]. unfold Rdiv. rewrite Rmult_assoc, Rinv_l by lra. nra. }
  assert (VE : bval (b_sub x y) = (bval x - bval y) * (1 + e)) by (rewrite V; exact R).
  split; [|exists e; split; assumption]. split; [exact F|]. rewrite VE. rewrite Rabs_mult. apply Rabs_le_inv in EU.
  apply Rle_trans with (2048 * 2); [|lra]. apply Rmult_le_compat; [apply Rabs_pos|apply Rabs_pos|apply Rabs_le; lra|apply Rabs_le; lra].
Qed.
Definition dist2 (x y : list b64) : R := fold_right (fun p s => (bval (fst p) - bval (snd p)) ^ 2 + s) 0 (combine x y).
Lemma subs_rel x : forall y, Forall sane x -> Forall sane y -> let d := map (fun p => b_sub (fst p) (snd p)) (combine x y) in
  Forall mid d /\ 0 <= dist2 x y /\ (1 - uu) ^ 2 * dist2 x y <= sumsq d <= (1 + uu) ^ 2 * dist2 x y.
Proof.
  pose proof uu_pos as U. pose proof uu_small as US.
  induction x as [|a x IH]; intros y HX HY; [cbn; split; [constructor|lra]|]. destruct y as [|b y]; [cbn; split; [constructor|lra]|].
  inversion HX as [|? ? [FA BA] HX']; subst. inversion HY as [|? ? [FB BB] HY']; subst. destruct (IH y HX' HY') as (M & P & S). destruct (sub_rel a b FA FB BA BB) as (MS & e & E & V).
  cbn [combine map fst snd]. cbv zeta. rewrite sumsq_cons, V. unfold dist2 in *. cbn [combine fold_right fst snd]. set (d := bval a - bval b). set (D := fold_right _ 0 (combine x y)) in *. set (Q := sumsq _) in *.
  split; [constructor; assumption|]. pose proof (pow2_ge_0 d) as D0. split; [lra|]. apply Rabs_le_inv in E.
  replace (d * (1 + e) * (d * (1 + e))) with ((1 + e) ^ 2 * d ^ 2) by ring.
  assert (L : (1 - uu) ^ 2 * d ^ 2 <= (1 + e) ^ 2 * d ^ 2) by (apply Rmult_le_compat_r; [exact D0|apply pow_incr; lra]).
  assert (H : (1 + e) ^ 2 * d ^ 2 <= (1 + uu) ^ 2 * d ^ 2) by (apply Rmult_le_compat_r; [exact D0|apply pow_incr; lra]). lra.
Qed.
(** the computed distance *)
Lemma key_near L dot x y : In dot b_dots -> length x = length y -> (5 <= length x <= 20)%nat -> Forall sane x -> Forall sane y ->
  let k := l_norm (b64_arith L dot) (l_sub (b64_arith L dot) x y) in
  bfin k /\ Rabs (bval k - joint_dist x y) <= 70 * uu * joint_dist x y + bpow radix2 (-448).
Proof.
  intros HD LE LN HX HY k. destruct (subs_rel x y HX HY) as (M & P & S1 & S2). set (d := map (fun p => b_sub (fst p) (snd p)) (combine x y)) in *.
  assert (LD : length d = length x) by (unfold d; rewrite map_length, combine_length; lia).
  destruct (len_abs dot d HD ltac:(lia) M) as (F & E). change (b_sqrt (dot d d)) with k in F, E. split; [exact F|].
  change (joint_dist x y) with (sqrt (dist2 x y)). pose proof uu_pos as U. pose proof uu_small as US. pose proof (sqrt_pos (dist2 x y)) as D0. set (D := sqrt (dist2 x y)) in *.
  assert (H : sqrt (sumsq d) <= (1 + uu) * D). { unfold D. rewrite <- (sqrt_pow2 (1 + uu)) by lra. rewrite <- sqrt_mult by (try apply pow2_ge_0; exact P). apply sqrt_le_1_alt. exact S2. }
  assert (G : (1 - uu) * D <= sqrt (sumsq d)). { unfold D. rewrite <- (sqrt_pow2 (1 - uu)) by lra. rewrite <- sqrt_mult by (try apply pow2_ge_0; exact P). apply sqrt_le_1_alt. exact S1. }
  assert (63 * uu * sqrt (sumsq d) <= 63 * uu * ((1 + uu) * D)) by (apply Rmult_le_compat_l; lra).
  assert (uu * ((1 + uu) * D) <= 101 / 100 * (uu * D)). { replace (uu * ((1 + uu) * D)) with ((1 + uu) * (uu * D)) by ring. apply Rmult_le_compat_r; [apply Rmult_le_pos; lra|lra]. }
  assert (0 <= uu * D) by (apply Rmult_le_pos; lra). apply Rabs_le_inv in E. apply Rabs_le. lra.
Qed.

(* ---- the sorting ---- *)
Lemma map_out_nth {T} (l : list T) : forall is res i x, map_out (index l) is = Ok res -> nth_error res i = Some x -> exists a, nth_error is i = Some a /\ nth_error l a = Some x.
Proof.
  induction is as [|k is IH]; intros res i x E N; cbn [map_out] in E; [injection E as <-; destruct i; discriminate N|].
  unfold index at 1 in E. destruct (nth_error l k) as [v|] eqn:EV; cbn [bind] in E; [|discriminate].
  destruct (map_out (index l) is) as [ys|e] eqn:EY; cbn [bind] in E; [|discriminate]. injection E as <-.
  destruct i as [|i]; [injection N as <-; exists k; split; [reflexivity|exact EV]|]. exact (IH ys i x eq_refl N).
Qed.
Lemma sort_nth (A : arith) argsort last sols res i x : g_sort A argsort (Some last) sols = Ok res -> nth_error res i = Some x ->
  exists a, nth_error (argsort (map (fun s => l_norm A (l_sub A s last)) sols)) i = Some a /\ nth_error sols a = Some x.
Proof.
  intros E NX. unfold g_sort in E. destruct sols as [|s l]; [discriminate|]. destruct (Nat.eqb (length s) (length last)); [|discriminate]. exact (map_out_nth _ _ _ _ _ E NX).
Qed.
Lemma sort_first L dot argsort last sols res : In dot b_dots -> sorts_keys argsort -> (5 <= length last <= 20)%nat -> Forall sane last ->
  g_sort (b64_arith L dot) argsort (Some last) sols = Ok res -> (forall x, In x res -> length x = length last /\ Forall sane x) -> nearest_first last res.
Proof.
  intros HD SO LL HL E G i j x y IJ NX NY.
  destruct (sort_nth _ _ _ _ _ _ _ E NX) as (a & NA & XA). destruct (sort_nth _ _ _ _ _ _ _ E NY) as (b & NB & YB).
  destruct (G x (nth_error_In _ _ NX)) as [LX SX]. destruct (G y (nth_error_In _ _ NY)) as [LY SY].
  destruct (key_near L dot x last HD LX (eq_rect_r (fun n => (5 <= n <= 20)%nat) LL LX) SX HL) as (FX & EX). destruct (key_near L dot y last HD LY (eq_rect_r (fun n => (5 <= n <= 20)%nat) LL LY) SY HL) as (FY & EY).
  pose proof (proj2 (SO _) i j a b _ _ IJ NA NB (map_nth_error (fun s => l_norm (b64_arith L dot) (l_sub (b64_arith L dot) s last)) _ _ XA) (map_nth_error (fun s => l_norm (b64_arith L dot) (l_sub (b64_arith L dot) s last)) _ _ YB) FX FY) as LE.
  cbv zeta in EX, EY, LE. revert LE EX EY. generalize (bval (l_norm (b64_arith L dot) (l_sub (b64_arith L dot) x last))) (bval (l_norm (b64_arith L dot) (l_sub (b64_arith L dot) y last))). intros kx ky LE EX EY.
  pose proof uu_pos as U. pose proof uu_small as US. assert (DX : 0 <= joint_dist x last) by apply sqrt_pos. assert (DY : 0 <= joint_dist y last) by apply sqrt_pos. set (dx := joint_dist x last) in *. set (dy := joint_dist y last) in *.
  apply Rabs_le_inv in EX, EY. pose proof (bpow_gt_0 radix2 (-448)) as B0.
  assert (E8 : bpow radix2 (-440) = 256 * bpow radix2 (-448)) by (change 256 with (bpow radix2 8); rewrite <- bpow_plus; reflexivity).
  assert (E4 : bpow radix2 (-44) = 512 * uu) by (unfold uu; change 512 with (bpow radix2 9); rewrite <- bpow_plus; reflexivity).
  rewrite E8, E4. set (t := bpow radix2 (-448)) in *.
  assert (Q : (1 - 70 * uu) * dx <= (1 + 70 * uu) * dy + 2 * t) by lra.
  assert (DD : dx <= 2 * dy + 4 * t). { assert (70 * uu * dx <= 1 / 10 * dx) by (apply Rmult_le_compat_r; lra). assert (70 * uu * dy <= 1 / 10 * dy) by (apply Rmult_le_compat_r; lra). lra. }
  assert (uu * dx <= uu * (2 * dy + 4 * t)) by (apply Rmult_le_compat_l; lra). assert (0 <= uu * dy) by (apply Rmult_le_pos; lra). assert (uu * t <= 1 / 100 * t) by (apply Rmult_le_compat_r; lra). lra.
Qed.
