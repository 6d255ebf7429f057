(** Operations of binary64 that are exact or stay in range. *)
From Coq Require Import Reals ZArith List Bool Lra Lia.
From Flocq Require Import Core.Core IEEE754.BinarySingleNaN.
From Verif Require Import LinAlg RealAux Py ModelRot ModelFloat SpecRound FactsB64.
Import ListNotations.
Open Scope R_scope.

Notation b_fmt := (generic_format radix2 (FLT_exp (-1074) 53)).
#[global] Instance b_exp_valid : Valid_exp (FLT_exp (-1074) 53).
Proof. apply FLT_exp_valid. reflexivity. Qed.

(** x is finite and stands for v *)
Definition isv (x : b64) (v : R) : Prop := bfin x /\ bval x = v.

Lemma fmt_bval x : b_fmt (bval x). Proof. apply generic_format_B2R. Qed.
Lemma rnd_exact v : b_fmt v -> rnd v = v.
Proof. intros F. apply round_generic; [apply valid_rnd_N | exact F]. Qed.
Lemma rnd_fmt v : b_fmt (rnd v).
Proof. apply generic_format_round; [exact b_exp_valid | apply valid_rnd_N]. Qed.
Lemma rnd_le a b : a <= b -> rnd a <= rnd b.
Proof. intros H. apply round_le; [exact b_exp_valid | apply valid_rnd_N | exact H]. Qed.
Lemma fmt_pow n : (-1074 <= n)%Z -> b_fmt (bpow radix2 n).
Proof. intros H. apply generic_format_bpow. unfold FLT_exp. lia. Qed.
Lemma rnd_abs_le v n : (-1074 <= n)%Z -> Rabs v <= bpow radix2 n -> Rabs (rnd v) <= bpow radix2 n.
Proof.
  intros N H. apply Rabs_le_inv in H. apply Rabs_le. split.
  - rewrite <- (rnd_exact (- bpow radix2 n)) by (apply generic_format_opp, fmt_pow; exact N). apply rnd_le. lra.
  - rewrite <- (rnd_exact (bpow radix2 n)) by (apply fmt_pow; exact N). apply rnd_le. lra.
Qed.
Lemma in_range v : Rabs v <= bpow radix2 1000 -> Rlt_bool (Rabs (rnd v)) (bpow radix2 1024) = true.
Proof.
  intros H. apply Rlt_bool_true. apply Rle_lt_trans with (bpow radix2 1000); [apply rnd_abs_le; [lia | exact H] | apply bpow_lt; lia].
Qed.
Lemma in_range_exact x v : v = bval x -> Rlt_bool (Rabs (rnd v)) (bpow radix2 1024) = true.
Proof. intros ->. rewrite rnd_exact by apply fmt_bval. apply Rlt_bool_true. apply abs_B2R_lt_emax. Qed.

Lemma add_range x y : bfin x -> bfin y -> Rlt_bool (Rabs (rnd (bval x + bval y))) (bpow radix2 1024) = true -> isv (b_add x y) (rnd (bval x + bval y)).
Proof.
  intros Fx Fy H. pose proof (Bplus_correct 53 1024 prec64 emax64 mode_NE x y Fx Fy) as C.
  change (round radix2 _ _ _) with (rnd (bval x + bval y)) in C. rewrite H in C. split; apply C.
Qed.
Lemma sub_range x y : bfin x -> bfin y -> Rlt_bool (Rabs (rnd (bval x - bval y))) (bpow radix2 1024) = true -> isv (b_sub x y) (rnd (bval x - bval y)).
Proof.
  intros Fx Fy H. pose proof (Bminus_correct 53 1024 prec64 emax64 mode_NE x y Fx Fy) as C.
  change (round radix2 _ _ _) with (rnd (bval x - bval y)) in C. rewrite H in C. split; apply C.
Qed.
Lemma mul_range x y : bfin x -> bfin y -> Rlt_bool (Rabs (rnd (bval x * bval y))) (bpow radix2 1024) = true -> isv (b_mul x y) (rnd (bval x * bval y)).
Proof.
  intros Fx Fy H. pose proof (Bmult_correct 53 1024 prec64 emax64 mode_NE x y) as C.
  change (round radix2 _ _ _) with (rnd (bval x * bval y)) in C. rewrite H in C. destruct C as (C1 & C2 & _).
  split; [|exact C1]. unfold bfin in *. rewrite Fx, Fy in C2. exact C2.
Qed.
Lemma fma_range x y z : bfin x -> bfin y -> bfin z -> Rlt_bool (Rabs (rnd (bval x * bval y + bval z))) (bpow radix2 1024) = true ->
  isv (b_fma x y z) (rnd (bval x * bval y + bval z)).
Proof.
  intros Fx Fy Fz H. pose proof (Bfma_correct 53 1024 prec64 emax64 mode_NE x y z Fx Fy Fz) as C. cbv zeta in C.
  change (round radix2 _ _ _) with (rnd (bval x * bval y + bval z)) in C. rewrite H in C. split; apply C.
Qed.
Lemma div_range x y : bfin x -> bval y <> 0 -> Rlt_bool (Rabs (rnd (bval x / bval y))) (bpow radix2 1024) = true -> isv (b_div x y) (rnd (bval x / bval y)).
Proof.
  intros Fx Ny H. pose proof (Bdiv_correct 53 1024 prec64 emax64 mode_NE x y Ny) as C.
  change (round radix2 _ _ _) with (rnd (bval x / bval y)) in C. rewrite H in C. destruct C as (C1 & C2 & _).
  split; [|exact C1]. unfold bfin in *. rewrite Fx in C2. exact C2.
Qed.
Lemma sqrt_range x : bfin x -> 0 < bval x -> isv (b_sqrt x) (rnd (sqrt (bval x))).
Proof.
  intros Fx P. destruct (Bsqrt_correct 53 1024 prec64 emax64 mode_NE x) as (C1 & C2 & _). split; [|exact C1].
  unfold bfin, b_sqrt. rewrite C2. destruct x as [s|s| |s m e B]; try discriminate; [reflexivity|].
  destruct s; [|reflexivity]. exfalso. unfold bval, B2R, F2R in P. cbn in P.
  assert (IZR (Z.neg m) < 0) by (apply IZR_lt; reflexivity). pose proof (bpow_gt_0 radix2 e). nra.
Qed.

(* ---- products with 0 and 1, sums with 0 ---- *)
Lemma isv_mul0 x y : bfin x -> isv y 0 -> isv (b_mul x y) 0.
Proof.
  intros Fx [Fy Vy]. destruct (mul_range x y Fx Fy) as [F V].
  - rewrite Vy, Rmult_0_r. apply (in_range_exact b_zero). reflexivity.
  - split; [exact F|]. rewrite V, Vy, Rmult_0_r. apply rnd_exact, generic_format_0.
Qed.
Lemma isv_0mul x y : isv x 0 -> bfin y -> isv (b_mul x y) 0.
Proof.
  intros [Fx Vx] Fy. destruct (mul_range x y Fx Fy) as [F V].
  - rewrite Vx, Rmult_0_l. apply (in_range_exact b_zero). reflexivity.
  - split; [exact F|]. rewrite V, Vx, Rmult_0_l. apply rnd_exact, generic_format_0.
Qed.
Lemma isv_mul1 x y v : isv x v -> isv y 1 -> isv (b_mul x y) v.
Proof.
  intros [Fx Vx] [Fy Vy]. destruct (mul_range x y Fx Fy) as [F V].
  - rewrite Vy, Rmult_1_r. apply (in_range_exact x). reflexivity.
  - split; [exact F|]. rewrite V, Vy, Rmult_1_r, Vx. apply rnd_exact. rewrite <- Vx. apply fmt_bval.
Qed.
Lemma isv_add0 x y v : isv x v -> isv y 0 -> isv (b_add x y) v.
Proof.
  intros [Fx Vx] [Fy Vy]. destruct (add_range x y Fx Fy) as [F V].
  - rewrite Vy, Rplus_0_r. apply (in_range_exact x). reflexivity.
  - split; [exact F|]. rewrite V, Vy, Rplus_0_r, Vx. apply rnd_exact. rewrite <- Vx. apply fmt_bval.
Qed.
Lemma isv_0add x y v : isv x 0 -> isv y v -> isv (b_add x y) v.
Proof.
  intros [Fx Vx] [Fy Vy]. destruct (add_range x y Fx Fy) as [F V].
  - rewrite Vx, Rplus_0_l. apply (in_range_exact y). reflexivity.
  - split; [exact F|]. rewrite V, Vx, Rplus_0_l, Vy. apply rnd_exact. rewrite <- Vy. apply fmt_bval.
Qed.
Lemma isv_sub0 x y v : isv x v -> isv y 0 -> isv (b_sub x y) v.
Proof.
  intros [Fx Vx] [Fy Vy]. destruct (sub_range x y Fx Fy) as [F V].
  - rewrite Vy, Rminus_0_r. apply (in_range_exact x). reflexivity.
  - split; [exact F|]. rewrite V, Vy, Rminus_0_r, Vx. apply rnd_exact. rewrite <- Vx. apply fmt_bval.
Qed.
Lemma isv_sub_same x y v : isv x v -> isv y v -> isv (b_sub x y) 0.
Proof.
  intros [Fx Vx] [Fy Vy]. destruct (sub_range x y Fx Fy) as [F V].
  - rewrite Vx, Vy, Rminus_diag_eq by reflexivity. apply (in_range_exact b_zero). reflexivity.
  - split; [exact F|]. rewrite V, Vx, Vy, Rminus_diag_eq by reflexivity. apply rnd_exact, generic_format_0.
Qed.
Lemma isv_fma0 x y z v : bfin x -> isv y 0 -> isv z v -> isv (b_fma x y z) v.
Proof.
  intros Fx [Fy Vy] [Fz Vz]. destruct (fma_range x y z Fx Fy Fz) as [F V].
  - rewrite Vy, Rmult_0_r, Rplus_0_l. apply (in_range_exact z). reflexivity.
  - split; [exact F|]. rewrite V, Vy, Rmult_0_r, Rplus_0_l, Vz. apply rnd_exact. rewrite <- Vz. apply fmt_bval.
Qed.
Lemma isv_fma1 x y z v : isv x v -> isv y 1 -> isv z 0 -> isv (b_fma x y z) v.
Proof.
  intros [Fx Vx] [Fy Vy] [Fz Vz]. destruct (fma_range x y z Fx Fy Fz) as [F V].
  - rewrite Vy, Vz, Rmult_1_r, Rplus_0_r. apply (in_range_exact x). reflexivity.
  - split; [exact F|]. rewrite V, Vy, Vz, Rmult_1_r, Rplus_0_r, Vx. apply rnd_exact. rewrite <- Vx. apply fmt_bval.
Qed.
Lemma over_1 v : v / 1 = v. Proof. field. Qed.
Lemma isv_div1 x y v : isv x v -> isv y 1 -> isv (b_div x y) v.
Proof.
  intros [Fx Vx] [Fy Vy]. destruct (div_range x y Fx) as [F V].
  - rewrite Vy. lra.
  - rewrite Vy, over_1. apply (in_range_exact x). reflexivity.
  - split; [exact F|]. rewrite V, Vy, over_1, Vx. apply rnd_exact. rewrite <- Vx. apply fmt_bval.
Qed.
Lemma isv_0div x y : isv x 0 -> bval y <> 0 -> isv (b_div x y) 0.
Proof.
  intros [Fx Vx] Ny. destruct (div_range x y Fx Ny) as [F V].
  - rewrite Vx. unfold Rdiv. rewrite Rmult_0_l. apply (in_range_exact b_zero). reflexivity.
  - split; [exact F|]. rewrite V, Vx. unfold Rdiv. rewrite Rmult_0_l. apply rnd_exact, generic_format_0.
Qed.
Lemma isv_fin x v : isv x v -> bfin x. Proof. intros [F _]. exact F. Qed.
Lemma isv_zero : isv b_zero 0. Proof. split; reflexivity. Qed.

(* ---- results of bounded size ---- *)
(** x is finite and at most 2^n *)
Definition upto (n : Z) (x : b64) : Prop := bfin x /\ Rabs (bval x) <= bpow radix2 n.
Lemma pow_le_1000 n : (n <= 1000)%Z -> bpow radix2 n <= bpow radix2 1000. Proof. intros. apply bpow_le. lia. Qed.
Lemma upto_mul m n x y : (-1074 <= m + n <= 1000)%Z -> upto m x -> upto n y -> upto (m + n) (b_mul x y).
Proof.
  intros R [Fx Bx] [Fy By].
  assert (B : Rabs (bval x * bval y) <= bpow radix2 (m + n)).
  { rewrite Rabs_mult, bpow_plus. apply Rmult_le_compat; auto using Rabs_pos. }
  destruct (mul_range x y Fx Fy) as [F V].
  - apply in_range. eapply Rle_trans; [exact B|]. apply pow_le_1000. lia.
  - split; [exact F|]. rewrite V. apply rnd_abs_le; [lia | exact B].
Qed.
Lemma upto_add n x y : (-1074 <= n < 1000)%Z -> upto n x -> upto n y -> upto (n + 1) (b_add x y).
Proof.
  intros R [Fx Bx] [Fy By].
  assert (B : Rabs (bval x + bval y) <= bpow radix2 (n + 1)).
  { rewrite bpow_plus. change (bpow radix2 1) with 2. pose proof (Rabs_triang (bval x) (bval y)). lra. }
  destruct (add_range x y Fx Fy) as [F V].
  - apply in_range. eapply Rle_trans; [exact B|]. apply pow_le_1000. lia.
  - split; [exact F|]. rewrite V. apply rnd_abs_le; [lia | exact B].
Qed.
Lemma upto_fma m n x y z : (-1074 <= m + n < 1000)%Z -> upto m x -> upto n y -> upto (m + n) z -> upto (m + n + 1) (b_fma x y z).
Proof.
  intros R [Fx Bx] [Fy By] [Fz Bz].
  assert (B0 : Rabs (bval x * bval y) <= bpow radix2 (m + n)).
  { rewrite Rabs_mult, bpow_plus. apply Rmult_le_compat; auto using Rabs_pos. }
  assert (B : Rabs (bval x * bval y + bval z) <= bpow radix2 (m + n + 1)).
  { rewrite (bpow_plus radix2 (m + n) 1). change (bpow radix2 1) with 2. pose proof (Rabs_triang (bval x * bval y) (bval z)). lra. }
  destruct (fma_range x y z Fx Fy Fz) as [F V].
  - apply in_range. eapply Rle_trans; [exact B|]. apply pow_le_1000. lia.
  - split; [exact F|]. rewrite V. apply rnd_abs_le; [lia | exact B].
Qed.
Lemma upto_weak m n x : (m <= n)%Z -> upto m x -> upto n x.
Proof. intros H [F B]. split; [exact F|]. eapply Rle_trans; [exact B|]. apply bpow_le. exact H. Qed.
Lemma upto_zero n : upto n b_zero. Proof. split; [reflexivity|]. cbn. rewrite Rabs_R0. apply bpow_ge_0. Qed.
Lemma fold_upto step l : (forall n s x y, (0 <= n < 998)%Z -> upto 400 x -> upto 400 y -> upto n s -> (801 <= n)%Z -> upto (n + 1) (step s (x, y))) ->
  Forall (fun p => upto 400 (fst p) /\ upto 400 (snd p)) l -> forall n s, upto n s -> (801 <= n)%Z -> (n + Z.of_nat (length l) < 998)%Z -> bfin (fold_left step l s).
Proof.
  intros St F. induction F as [|[x y] l [Fx Fy] Fl IH]; intros n s Hs Hn HL; cbn [fold_left length] in *; [apply Hs|].
  apply (IH (n + 1)%Z); [|lia | lia]. apply St; auto. lia.
Qed.
(** a dot product of three entries of moderate size does not overflow *)
Lemma dot3_fin dot : In dot b_dots -> forall a b c x y z, upto 400 a -> upto 400 b -> upto 400 c -> upto 400 x -> upto 400 y -> upto 400 z ->
  bfin (dot [a; b; c] [x; y; z]).
Proof.
  intros HI a b c x y z Ha Hb Hc Hx Hy Hz.
  assert (S1 : forall n s x y, (0 <= n < 998)%Z -> upto 400 x -> upto 400 y -> upto n s -> (801 <= n)%Z -> upto (n + 1) (b_add s (b_mul x y))).
  { intros n s x0 y0 R Ux Uy Us N. apply upto_add; [lia | exact Us|]. apply (upto_weak 800); [lia|]. apply (upto_mul 400 400); auto; lia. }
  assert (S2 : forall n s x y, (0 <= n < 998)%Z -> upto 400 x -> upto 400 y -> upto n s -> (801 <= n)%Z -> upto (n + 1) (b_fma x y s)).
  { intros n s x0 y0 R Ux Uy Us N. replace (n + 1)%Z with (400 + (n - 400) + 1)%Z by lia. apply upto_fma; [lia | exact Ux | apply (upto_weak 400); [lia | exact Uy]|].
    apply (upto_weak n); [lia | exact Us]. }
  assert (F1 : Forall (fun p => upto 400 (fst p) /\ upto 400 (snd p)) [(a, x); (b, y); (c, z)]) by (repeat apply Forall_cons; try apply Forall_nil; split; assumption).
  assert (F2 : Forall (fun p => upto 400 (fst p) /\ upto 400 (snd p)) [(c, z); (b, y); (a, x)]) by (repeat apply Forall_cons; try apply Forall_nil; split; assumption).
  repeat (destruct HI as [<- | HI];
    [cbn [combine rev app sum_pairs sum_lanes]; unfold sum_seq, sum_fma;
     (apply (fold_upto (fun s p => b_add s (b_mul (fst p) (snd p)))) with (n := 801%Z) || apply (fold_upto (fun s p => b_fma (fst p) (snd p) s)) with (n := 801%Z));
     [intros n s x0 y0 R U1 U2 U3 N; (apply S1 || apply S2); assumption | assumption | apply upto_zero | lia | cbn; lia]|]).
  destruct HI.
Qed.

(** the dot product with a coordinate axis is the entry, exactly *)
Lemma dot3_axis dot : In dot b_dots -> forall a b c x y z v,
  (isv a v /\ bfin b /\ bfin c /\ isv x 1 /\ isv y 0 /\ isv z 0) \/
  (bfin a /\ isv b v /\ bfin c /\ isv x 0 /\ isv y 1 /\ isv z 0) \/
  (bfin a /\ bfin b /\ isv c v /\ isv x 0 /\ isv y 0 /\ isv z 1) ->
  isv (dot [a; b; c] [x; y; z]) v.
Proof.
  intros HI a b c x y z v H. pose proof isv_zero as Z0.
  destruct H as [(Ha & Hb & Hc & Hx & Hy & Hz) | [(Ha & Hb & Hc & Hx & Hy & Hz) | (Ha & Hb & Hc & Hx & Hy & Hz)]];
  repeat (destruct HI as [<- | HI];
    [cbn [combine rev app sum_pairs sum_lanes]; unfold sum_seq, sum_fma; cbn [fold_left fst snd];
     eauto 12 using isv_mul0, isv_mul1, isv_add0, isv_0add, isv_fma0, isv_fma1|]); destruct HI.
Qed.
