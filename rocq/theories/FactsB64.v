(** IEEE 754 binary64 satisfies the contract of SpecRound. *)
From Coq Require Import Reals ZArith List Bool Lra Lia.
From Flocq Require Import Core.Core IEEE754.BinarySingleNaN Relative.
From Verif Require Import LinAlg RealAux Py ModelRot ModelRobot ModelFloat SpecRound.
Import ListNotations.
Open Scope R_scope.

Definition bfin (x : b64) : Prop := is_finite x = true.
Definition bval (x : b64) : R := B2R x.
Definition uu : R := bpow radix2 (-53).
Definition ee : R := bpow radix2 (-1075).
Definition rnd (x : R) : R := round radix2 (FLT_exp (-1074) 53) ZnearestE x.

Lemma uu_pos : 0 < uu. Proof. apply bpow_gt_0. Qed.
Lemma ee_pos : 0 < ee. Proof. apply bpow_gt_0. Qed.
Lemma uu_small : uu <= 1 / 1000000.
Proof.
  apply Rle_trans with (bpow radix2 (-20)); [apply bpow_le; lia|]. unfold bpow. cbn. lra.
Qed.
Lemma ee_le_uu : ee <= uu. Proof. apply bpow_le. lia. Qed.

Lemma rnd_err x : Rabs (rnd x - x) <= uu * Rabs x + ee.
Proof.
  destruct (error_N_FLT radix2 (-1074) 53 ltac:(lia) (fun n => negb (Z.even n)) x) as (eps & eta & H1 & H2 & _ & E).
  unfold rnd. rewrite E. replace (x * (1 + eps) + eta - x) with (eps * x + eta) by ring.
  eapply Rle_trans; [apply Rabs_triang|]. rewrite Rabs_mult.
  assert (Rabs eps <= uu) by (eapply Rle_trans; [exact H1|]; unfold uu; replace (/ 2) with (bpow radix2 (-1)) by (cbn; lra); rewrite <- bpow_plus; apply bpow_le; lia).
  assert (Rabs eta <= ee) by (eapply Rle_trans; [exact H2|]; unfold ee; replace (/ 2) with (bpow radix2 (-1)) by (cbn; lra); rewrite <- bpow_plus; apply bpow_le; lia).
  pose proof (Rmult_le_compat_r (Rabs x) _ _ (Rabs_pos x) H). lra.
Qed.

Lemma overflow_not_finite (x : b64) s : B2SF x = binary_overflow 53 1024 mode_NE s -> bfin x -> False.
Proof. unfold bfin. intros E F. destruct x; cbn in *; discriminate. Qed.

Lemma add_fin x y : bfin (b_add x y) -> bfin x /\ bfin y.
Proof. unfold bfin. destruct x, y; cbn; try tauto; try discriminate; repeat match goal with |- context [if ?b then _ else _] => destruct b end; cbn; try tauto; try discriminate. Qed.
Lemma sub_fin x y : bfin (b_sub x y) -> bfin x /\ bfin y.
Proof. unfold bfin. destruct x, y; cbn; try tauto; try discriminate; repeat match goal with |- context [if ?b then _ else _] => destruct b end; cbn; try tauto; try discriminate. Qed.
Lemma mul_fin x y : bfin (b_mul x y) -> bfin x /\ bfin y.
Proof. unfold bfin. destruct x, y; cbn; try tauto; try discriminate. Qed.
Lemma fma_fin x y z : bfin (b_fma x y z) -> bfin x /\ bfin y /\ bfin z.
Proof. unfold bfin. destruct x, y, z; cbn; try tauto; try discriminate; repeat match goal with |- context [if ?b then _ else _] => destruct b end; cbn; try tauto; try discriminate. Qed.

Lemma add_val x y : bfin (b_add x y) -> bval (b_add x y) = rnd (bval x + bval y).
Proof.
  intros F. destruct (add_fin _ _ F) as [Fx Fy].
  pose proof (Bplus_correct 53 1024 prec64 emax64 mode_NE x y Fx Fy) as C. destruct (Rlt_bool _ _); [apply C|].
  destruct C as [C _]. destruct (overflow_not_finite _ _ C F).
Qed.
Lemma sub_val x y : bfin (b_sub x y) -> bval (b_sub x y) = rnd (bval x - bval y).
Proof.
  intros F. destruct (sub_fin _ _ F) as [Fx Fy].
  pose proof (Bminus_correct 53 1024 prec64 emax64 mode_NE x y Fx Fy) as C. destruct (Rlt_bool _ _); [apply C|].
  destruct C as [C _]. destruct (overflow_not_finite _ _ C F).
Qed.
Lemma mul_val x y : bfin (b_mul x y) -> bval (b_mul x y) = rnd (bval x * bval y).
Proof.
  intros F.
  pose proof (Bmult_correct 53 1024 prec64 emax64 mode_NE x y) as C. destruct (Rlt_bool _ _); [apply C|].
  destruct (overflow_not_finite _ _ C F).
Qed.
Lemma fma_val x y z : bfin (b_fma x y z) -> bval (b_fma x y z) = rnd (bval x * bval y + bval z).
Proof.
  intros F. destruct (fma_fin _ _ _ F) as (Fx & Fy & Fz).
  pose proof (Bfma_correct 53 1024 prec64 emax64 mode_NE x y z Fx Fy Fz) as C. cbv zeta in C. destruct (Rlt_bool _ _); [apply C|].
  destruct (overflow_not_finite _ _ C F).
Qed.

(* ---- sums of products ---- *)
(** s is the sum S, up to a relative error G - 1 of the sum T of the absolute values, and E *)
Definition acc (G E : R) (s : b64) (S T : R) : Prop := bfin s /\ Rabs (bval s - S) <= (G - 1) * T + E /\ Rabs S <= T.

Lemma acc_seq G E s S T x y : 1 <= G -> 0 <= E -> bfin (b_add s (b_mul x y)) -> (bfin s -> acc G E s S T) ->
  (bfin x /\ bfin y) /\ bfin s /\
  acc (G * ((1 + uu) * (1 + uu))) ((1 + uu) * (E + 3 * ee)) (b_add s (b_mul x y)) (S + bval x * bval y) (T + Rabs (bval x * bval y)).
Proof.
  intros HG HE F HA. destruct (add_fin _ _ F) as [Fs Fm]. destruct (mul_fin _ _ Fm) as [Fx Fy].
  split; [auto|]. split; [exact Fs|]. destruct (HA Fs) as (_ & H1 & H2). split; [exact F|].
  pose proof uu_pos. pose proof ee_pos. pose proof uu_small.
  rewrite (add_val _ _ F), (mul_val _ _ Fm). set (p := bval x * bval y). set (s0 := bval s) in *.
  pose proof (rnd_err p) as R1. pose proof (rnd_err (s0 + rnd p)) as R2. set (q := rnd p) in *. set (r := rnd (s0 + q)) in *.
  pose proof (Rabs_pos p) as Pp.
  assert (A1 : Rabs s0 <= G * T + E) by (replace s0 with (S + (s0 - S)) by ring; pose proof (Rabs_triang S (s0 - S)); lra).
  assert (A2 : Rabs q <= Rabs p + uu * Rabs p + ee) by (replace q with (p + (q - p)) by ring; pose proof (Rabs_triang p (q - p)); lra).
  pose proof (Rabs_triang s0 q) as A3.
  assert (A4 : uu * Rabs (s0 + q) <= uu * (G * T + E + (Rabs p + uu * Rabs p + ee))) by (apply Rmult_le_compat_l; lra).
  assert (T0 : 0 <= T) by (pose proof (Rabs_pos S); lra).
  split; [|pose proof (Rabs_triang S p); lra].
  replace (r - (S + p)) with ((r - (s0 + q)) + ((s0 - S) + (q - p))) by ring.
  pose proof (Rabs_triang (r - (s0 + q)) ((s0 - S) + (q - p))) as A5. pose proof (Rabs_triang (s0 - S) (q - p)) as A6.
  assert (B1 : 0 <= (G - 1) * Rabs p) by (apply Rmult_le_pos; lra).
  assert (B2 : 0 <= uu * ((G - 1) * Rabs p)) by (apply Rmult_le_pos; lra).
  assert (B3 : 0 <= uu * uu * ((G - 1) * Rabs p)) by (apply Rmult_le_pos; [apply Rmult_le_pos; lra | lra]).
  assert (B4 : 0 <= uu * (G * T)) by (apply Rmult_le_pos; [lra | apply Rmult_le_pos; lra]).
  assert (B5 : 0 <= uu * uu * (G * T)) by (apply Rmult_le_pos; [apply Rmult_le_pos; lra | apply Rmult_le_pos; lra]).
  assert (B6 : 0 <= uu * ee) by (apply Rmult_le_pos; lra).
  lra.
Qed.

Lemma acc_fma G E s S T x y : 1 <= G -> 0 <= E -> bfin (b_fma x y s) -> (bfin s -> acc G E s S T) ->
  (bfin x /\ bfin y) /\ bfin s /\
  acc (G * ((1 + uu) * (1 + uu))) ((1 + uu) * (E + 3 * ee)) (b_fma x y s) (S + bval x * bval y) (T + Rabs (bval x * bval y)).
Proof.
  intros HG HE F HA. destruct (fma_fin _ _ _ F) as (Fx & Fy & Fs).
  split; [auto|]. split; [exact Fs|]. destruct (HA Fs) as (_ & H1 & H2). split; [exact F|].
  pose proof uu_pos. pose proof ee_pos. pose proof uu_small.
  rewrite (fma_val _ _ _ F). set (p := bval x * bval y). set (s0 := bval s) in *.
  pose proof (rnd_err (p + s0)) as R2. set (r := rnd (p + s0)) in *.
  pose proof (Rabs_pos p) as Pp.
  assert (A1 : Rabs s0 <= G * T + E) by (replace s0 with (S + (s0 - S)) by ring; pose proof (Rabs_triang S (s0 - S)); lra).
  pose proof (Rabs_triang p s0) as A3.
  assert (A4 : uu * Rabs (p + s0) <= uu * (Rabs p + (G * T + E))) by (apply Rmult_le_compat_l; lra).
  assert (T0 : 0 <= T) by (pose proof (Rabs_pos S); lra).
  split; [|pose proof (Rabs_triang S p); lra].
  replace (r - (S + p)) with ((r - (p + s0)) + (s0 - S)) by ring.
  pose proof (Rabs_triang (r - (p + s0)) (s0 - S)) as A5.
  assert (B1 : 0 <= (G - 1) * Rabs p) by (apply Rmult_le_pos; lra).
  assert (B2 : 0 <= uu * ((G - 1) * Rabs p)) by (apply Rmult_le_pos; lra).
  assert (B3 : 0 <= uu * uu * ((G - 1) * Rabs p)) by (apply Rmult_le_pos; [apply Rmult_le_pos; lra | lra]).
  assert (B4 : 0 <= uu * (G * T)) by (apply Rmult_le_pos; [lra | apply Rmult_le_pos; lra]).
  assert (B5 : 0 <= uu * uu * (G * T)) by (apply Rmult_le_pos; [apply Rmult_le_pos; lra | apply Rmult_le_pos; lra]).
  assert (B6 : 0 <= uu * ee) by (apply Rmult_le_pos; lra).
  assert (B7 : 0 <= uu * Rabs p) by (apply Rmult_le_pos; lra).
  assert (B8 : 0 <= uu * uu * Rabs p) by (apply Rmult_le_pos; [apply Rmult_le_pos; lra | lra]).
  lra.
Qed.

Lemma acc_zero : acc 1 0 b_zero 0 0.
Proof. split; [reflexivity|]. cbn. rewrite Rminus_0_r, Rabs_R0. lra. Qed.

(** the sum of the products of a list of pairs, in any of the two ways *)
Definition dot_pairs (l : list (b64 * b64)) : R := fold_right (fun p s => bval (fst p) * bval (snd p) + s) 0 l.
Definition abs_pairs (l : list (b64 * b64)) : R := fold_right (fun p s => Rabs (bval (fst p) * bval (snd p)) + s) 0 l.
Definition fin_pairs (l : list (b64 * b64)) : Prop := Forall (fun p => bfin (fst p) /\ bfin (snd p)) l.

Section Fold.
Context (step : b64 -> b64 * b64 -> b64).
Hypothesis step_acc : forall G E s S T x y, 1 <= G -> 0 <= E -> bfin (step s (x, y)) -> (bfin s -> acc G E s S T) ->
  (bfin x /\ bfin y) /\ bfin s /\
  acc (G * ((1 + uu) * (1 + uu))) ((1 + uu) * (E + 3 * ee)) (step s (x, y)) (S + bval x * bval y) (T + Rabs (bval x * bval y)).

Fixpoint growE (n : nat) (E : R) : R := match n with O => E | Datatypes.S m => growE m ((1 + uu) * (E + 3 * ee)) end.

Lemma fold_acc l : forall G E s S T, 1 <= G -> 0 <= E -> bfin (fold_left step l s) -> (bfin s -> acc G E s S T) ->
  fin_pairs l /\ bfin s /\
  acc (G * ((1 + uu) * (1 + uu)) ^ length l) (growE (length l) E) (fold_left step l s) (S + dot_pairs l) (T + abs_pairs l).
Proof.
  induction l as [|[x y] l IH]; intros G E s S T HG HE F HA; cbn [fold_left length dot_pairs abs_pairs fold_right growE] in *.
  - rewrite pow_O, Rmult_1_r, !Rplus_0_r. split; [constructor|]. auto.
  - pose proof uu_pos. pose proof ee_pos.
    assert (U : 1 <= (1 + uu) * (1 + uu)) by nra.
    assert (HG' : 1 <= G * ((1 + uu) * (1 + uu))) by nra.
    assert (HE' : 0 <= (1 + uu) * (E + 3 * ee)) by (apply Rmult_le_pos; lra).
    destruct (IH _ _ _ (S + bval x * bval y) (T + Rabs (bval x * bval y)) HG' HE' F) as (F1 & F2 & A1).
    { intros Fs. apply (step_acc G E s S T x y HG HE Fs HA). }
    destruct (step_acc G E s S T x y HG HE F2 HA) as (F3 & F4 & _).
    split; [constructor; assumption|]. split; [exact F4|].
    cbn [fst snd]. fold (dot_pairs l) (abs_pairs l). rewrite <- !Rplus_assoc.
    replace (G * ((1 + uu) * (1 + uu)) ^ Datatypes.S (length l)) with (G * ((1 + uu) * (1 + uu)) * ((1 + uu) * (1 + uu)) ^ length l) by (cbn [pow]; ring).
    exact A1.
Qed.
End Fold.

Lemma sum_seq_acc l : bfin (sum_seq l) -> fin_pairs l /\
  acc (((1 + uu) * (1 + uu)) ^ length l) (growE (length l) 0) (sum_seq l) (dot_pairs l) (abs_pairs l).
Proof.
  intros F. unfold sum_seq in *.
  destruct (fold_acc (fun s p => b_add s (b_mul (fst p) (snd p))) (fun G E s S T x y HG HE HF HA => acc_seq G E s S T x y HG HE HF HA)
             l 1 0 b_zero 0 0 (Rle_refl 1) (Rle_refl 0) F (fun _ => acc_zero)) as (H1 & _ & H3).
  rewrite Rmult_1_l, !Rplus_0_l in H3. auto.
Qed.
Lemma sum_fma_acc l : bfin (sum_fma l) -> fin_pairs l /\
  acc (((1 + uu) * (1 + uu)) ^ length l) (growE (length l) 0) (sum_fma l) (dot_pairs l) (abs_pairs l).
Proof.
  intros F. unfold sum_fma in *.
  destruct (fold_acc (fun s p => b_fma (fst p) (snd p) s) (fun G E s S T x y HG HE HF HA => acc_fma G E s S T x y HG HE HF HA)
             l 1 0 b_zero 0 0 (Rle_refl 1) (Rle_refl 0) F (fun _ => acc_zero)) as (H1 & _ & H3).
  rewrite Rmult_1_l, !Rplus_0_l in H3. auto.
Qed.

Lemma three : ((1 + uu) * (1 + uu)) ^ 3 - 1 <= 7 * uu /\ growE 3 0 <= 10 * ee.
Proof.
  pose proof uu_pos as P. pose proof uu_small as Q. pose proof ee_pos as P'.
  assert (U2 : uu * uu <= uu * (1 / 1000000)) by (apply Rmult_le_compat_l; lra).
  assert (V : (1 + uu) * (1 + uu) <= 1 + 2.001 * uu) by lra.
  assert (V0 : 1 <= (1 + uu) * (1 + uu)) by nra.
  set (v := (1 + uu) * (1 + uu)) in *. split.
  - assert (v * v <= (1 + 2.001 * uu) * (1 + 2.001 * uu)) by (apply Rmult_le_compat; lra).
    assert (v * v <= 1 + 4.1 * uu) by lra.
    assert (v * v * v <= (1 + 4.1 * uu) * (1 + 2.001 * uu)) by (apply Rmult_le_compat; nra).
    cbn [pow]. lra.
  - cbn [growE].
    assert (X1 : (1 + uu) * (0 + 3 * ee) <= 3.1 * ee) by nra.
    assert (X2 : (1 + uu) * ((1 + uu) * (0 + 3 * ee) + 3 * ee) <= (1 + uu) * (6.1 * ee)) by (apply Rmult_le_compat_l; lra).
    assert (X3 : (1 + uu) * (6.1 * ee) <= 6.2 * ee) by nra.
    assert (X4 : (1 + uu) * ((1 + uu) * ((1 + uu) * (0 + 3 * ee) + 3 * ee) + 3 * ee) <= (1 + uu) * (9.2 * ee)) by (apply Rmult_le_compat_l; lra).
    assert (X5 : (1 + uu) * (9.2 * ee) <= 10 * ee) by nra.
    lra.
Qed.

(* ---- the contract ---- *)
Definition libm_ok (L : libm) (w : R) : Prop :=
  (forall x, bfin (m_sin L x) -> bfin x /\ Rabs (bval (m_sin L x) - sin (bval x)) <= w) /\
  (forall x, bfin (m_cos L x) -> bfin x /\ Rabs (bval (m_cos L x) - cos (bval x)) <= w).

Lemma dot_ok dot : In dot b_dots -> forall a b c x y z, bfin (dot [a; b; c] [x; y; z]) ->
  (bfin a /\ bfin b /\ bfin c /\ bfin x /\ bfin y /\ bfin z) /\
  Rabs (bval (dot [a; b; c] [x; y; z]) - (bval a * bval x + bval b * bval y + bval c * bval z))
   <= 7 * uu * (Rabs (bval a * bval x) + Rabs (bval b * bval y) + Rabs (bval c * bval z)) + 10 * ee.
Proof.
  intros HI a b c x y z.
  assert (K : forall s l, (l = [(a, x); (b, y); (c, z)] \/ l = [(c, z); (b, y); (a, x)]) ->
    fin_pairs l /\ acc (((1 + uu) * (1 + uu)) ^ length l) (growE (length l) 0) s (dot_pairs l) (abs_pairs l) ->
    (bfin a /\ bfin b /\ bfin c /\ bfin x /\ bfin y /\ bfin z) /\
    Rabs (bval s - (bval a * bval x + bval b * bval y + bval c * bval z))
     <= 7 * uu * (Rabs (bval a * bval x) + Rabs (bval b * bval y) + Rabs (bval c * bval z)) + 10 * ee).
  { intros s l El [Fl (_ & Hs & _)]. destruct three as [T1 T2].
    assert (Len : length l = 3%nat) by (destruct El as [-> | ->]; reflexivity). rewrite Len in Hs.
    assert (Fins : bfin a /\ bfin b /\ bfin c /\ bfin x /\ bfin y /\ bfin z).
    { destruct El as [-> | ->]; inversion Fl as [|? ? [? ?] F1]; inversion F1 as [|? ? [? ?] F2]; inversion F2 as [|? ? [? ?] F3]; auto 8. }
    split; [exact Fins|].
    assert (ED : dot_pairs l = bval a * bval x + bval b * bval y + bval c * bval z) by (destruct El as [-> | ->]; cbn; ring).
    assert (EA : abs_pairs l = Rabs (bval a * bval x) + Rabs (bval b * bval y) + Rabs (bval c * bval z)) by (destruct El as [-> | ->]; cbn; ring).
    rewrite ED, EA in Hs. set (t := Rabs (bval a * bval x) + Rabs (bval b * bval y) + Rabs (bval c * bval z)) in *.
    assert (0 <= t) by (unfold t; pose proof (Rabs_pos (bval a * bval x)); pose proof (Rabs_pos (bval b * bval y)); pose proof (Rabs_pos (bval c * bval z)); lra).
    pose proof (Rmult_le_compat_r t _ _ H T1). lra. }
  repeat (destruct HI as [<- | HI];
    [intros F; cbn [combine rev app sum_pairs sum_lanes] in *;
     eapply K; [|apply sum_seq_acc + apply sum_fma_acc; exact F]; auto|]).
  destruct HI.
Qed.

Theorem b64_sound L w dot : libm_ok L w -> In dot b_dots -> sound (b64_arith L dot) bfin bval uu (7 * uu) w (10 * ee).
Proof.
  intros [Ls Lc] HI. pose proof ee_pos as P.
  split.
  - split; [reflexivity|]. reflexivity.
  - split; [reflexivity|]. vm_compute. lra.
  - cbn [nneg b64_arith]. intros x F. split; [unfold bfin in *; rewrite is_finite_Bopp in F; exact F | apply B2R_Bopp].
  - cbn [nadd b64_arith]. intros x y F. destruct (add_fin _ _ F) as [Fx Fy]. rewrite (add_val _ _ F).
    pose proof (rnd_err (bval x + bval y)). repeat split; auto; lra.
  - cbn [nsub b64_arith]. intros x y F. destruct (sub_fin _ _ F) as [Fx Fy]. rewrite (sub_val _ _ F).
    pose proof (rnd_err (bval x - bval y)). repeat split; auto; lra.
  - cbn [nmul b64_arith]. intros x y F. destruct (mul_fin _ _ F) as [Fx Fy]. rewrite (mul_val _ _ F).
    pose proof (rnd_err (bval x * bval y)). repeat split; auto; lra.
  - cbn [ndot b64_arith]. apply dot_ok. exact HI.
  - exact Ls.
  - exact Lc.
  - cbn [nle b64_arith]. intros x y Fx Fy. unfold b_le. rewrite Bcompare_correct by assumption.
    unfold Rleb, bval. destruct (Rcompare_spec (B2R x) (B2R y)); destruct (Rle_dec (B2R x) (B2R y)); try reflexivity; lra.
Qed.

(* ---- math libraries that meet the contract ---- *)
(** the float nearest to a real of moderate size *)
Definition b_near (x : R) : b64 :=
  binary_normalize 53 1024 prec64 emax64 mode_NE
    (ZnearestE (scaled_mantissa radix2 (FLT_exp (-1074) 53) x)) (cexp radix2 (FLT_exp (-1074) 53) x) false.
Lemma b_near_ok x : Rabs x <= 1 -> bfin (b_near x) /\ bval (b_near x) = rnd x.
Proof.
  intros H. unfold b_near.
  pose proof (binary_normalize_correct 53 1024 prec64 emax64 mode_NE
    (ZnearestE (scaled_mantissa radix2 (FLT_exp (-1074) 53) x)) (cexp radix2 (FLT_exp (-1074) 53) x) false) as C.
  change (F2R _) with (rnd x) in C.
  assert (V : Valid_exp (FLT_exp (-1074) 53)) by (apply FLT_exp_valid; reflexivity).
  assert (E : round radix2 (SpecFloat.fexp 53 1024) (round_mode mode_NE) (rnd x) = rnd x).
  { apply round_generic; [apply valid_rnd_round_mode|]. apply generic_format_round; [exact V | apply valid_rnd_N]. }
  cbv zeta in C. rewrite E in C. rewrite Rlt_bool_true in C; [split; apply C|].
  pose proof (rnd_err x). pose proof uu_small. pose proof uu_pos. pose proof ee_le_uu.
  assert (Rabs (rnd x) <= 2).
  { replace (rnd x) with (x + (rnd x - x)) by ring. pose proof (Rabs_triang x (rnd x - x)).
    assert (uu * Rabs x <= uu * 1) by (apply Rmult_le_compat_l; lra). lra. }
  apply Rle_lt_trans with (bpow radix2 1); [cbn; lra | apply bpow_lt; lia].
Qed.

(** sin and cos rounded to the nearest float *)
Definition exact_libm : libm :=
  Libm (fun x => if is_finite x then b_near (sin (bval x)) else B754_nan)
       (fun x => if is_finite x then b_near (cos (bval x)) else B754_nan)
       (fun x => B754_nan) (fun x y => B754_nan).
Lemma exact_libm_ok : libm_ok exact_libm (bpow radix2 (-52)).
Proof.
  assert (W : bpow radix2 (-52) = 2 * uu) by (unfold uu; replace (-52)%Z with (1 + -53)%Z by lia; rewrite bpow_plus; reflexivity).
  rewrite W. pose proof uu_pos. pose proof ee_le_uu.
  assert (G : forall y, Rabs y <= 1 -> Rabs (bval (b_near y) - y) <= 2 * uu).
  { intros y Hy. rewrite (proj2 (b_near_ok y Hy)). pose proof (rnd_err y).
    assert (uu * Rabs y <= uu * 1) by (apply Rmult_le_compat_l; lra). lra. }
  split; intros x; cbn [m_sin m_cos exact_libm]; unfold bfin; destruct (is_finite x) eqn:F; cbn [is_finite]; try discriminate; intros _; split; auto; apply G; apply Rabs_le.
  - pose proof (SIN_bound (bval x)). lra.
  - pose proof (COS_bound (bval x)). lra.
Qed.

(** a table with two arguments, 0 and 2^-30, for examples that are computed *)
Definition b_tiny : b64 := b_lit 1 (2 ^ 30).
Definition is_num (x y : b64) : bool := match Bcompare x y with Some Eq => true | _ => false end.
Definition table_libm : libm :=
  Libm (fun x => if is_num x b_zero then x else if is_num x b_tiny then x else B754_nan)
       (fun x => if is_num x b_zero then b_ofZ 1 else if is_num x b_tiny then b_ofZ 1 else B754_nan)
       (fun x => B754_nan) (fun x y => B754_nan).
Lemma is_num_val x y : bfin y -> is_num x y = true -> bfin x /\ bval x = bval y.
Proof.
  unfold is_num. intros Fy H. destruct (is_finite x) eqn:F.
  - rewrite Bcompare_correct in H by assumption. split; [exact F|]. unfold bval.
    destruct (Rcompare_spec (B2R x) (B2R y)); try discriminate. assumption.
  - exfalso. destruct x as [| sx | |]; try discriminate. destruct y; try discriminate; destruct sx; discriminate.
Qed.
Lemma tiny_val : bval b_tiny = / 1073741824. Proof. vm_compute. lra. Qed.
Lemma table_libm_ok : libm_ok table_libm (bpow radix2 (-52)).
Proof.
  assert (W : / 1000000000000000000 <= bpow radix2 (-52)) by (cbn; lra).
  assert (P : 3 < PI) by (pose proof PI2_3_2; lra).
  split; intros x; cbn [m_sin m_cos table_libm];
  (destruct (is_num x b_zero) eqn:Z; [apply is_num_val in Z; [|reflexivity]; destruct Z as [Fx Vx]
   | destruct (is_num x b_tiny) eqn:T; [apply is_num_val in T; [|reflexivity]; destruct T as [Fx Vx] | unfold bfin; discriminate]]);
  intros _; (split; [exact Fx|]).
  - rewrite Vx. change (bval b_zero) with 0. rewrite sin_0, Rminus_0_r, Rabs_R0. apply bpow_ge_0.
  - rewrite Vx, tiny_val. set (t := / 1073741824) in *.
    assert (T0 : 0 < t) by (unfold t; lra).
    destruct (pre_sin_bound t 0 ltac:(lra) ltac:(unfold t; lra)) as [B1 _].
    pose proof (sin_lt_x t T0) as B2.
    unfold sin_approx, sum_f_R0, sin_term in B1. cbn [pow fact Nat.mul Nat.add] in B1.
    replace (INR 6) with 6 in B1 by (cbn; lra). change (INR 1) with 1 in B1.
    eapply Rle_trans; [|exact W]. apply Rabs_le. unfold t in *. lra.
  - rewrite Vx. change (bval b_zero) with 0. rewrite cos_0. replace (bval (b_ofZ 1)) with 1 by (vm_compute; lra).
    unfold Rminus. rewrite Rplus_opp_r, Rabs_R0. apply bpow_ge_0.
  - rewrite Vx, tiny_val. set (t := / 1073741824) in *.
    assert (T0 : 0 < t) by (unfold t; lra).
    destruct (pre_cos_bound t 0 ltac:(lra) ltac:(unfold t; lra)) as [B1 _].
    pose proof (COS_bound t) as [_ B2].
    unfold cos_approx, sum_f_R0, cos_term in B1. cbn [pow fact Nat.mul Nat.add] in B1.
    change (INR 2) with 2 in B1. change (INR 1) with 1 in B1.
    replace (bval (b_ofZ 1)) with 1 by (vm_compute; lra).
    eapply Rle_trans; [|exact W]. apply Rabs_le. unfold t in *. lra.
Qed.
