(** Error tracking for binary64: a float that stands for an exact number up to c * 2^-53 * m. *)
From Coq Require Import Reals ZArith List Bool Lra Lia Psatz.
From Flocq Require Import Core.Core IEEE754.BinarySingleNaN.
From Verif Require Import LinAlg RealAux Py FactsReal FactsLinAlg ModelRot ModelRobot SpecRot SpecSub FactsSub ModelFloat SpecRound FactsB64 FactsExact.
Import ListNotations.
Open Scope R_scope.

(** x is finite, differs from v by at most c * 2^-53 * m, and |v| <= m *)
Definition tr (c m : R) (x : b64) (v : R) : Prop := bfin x /\ Rabs (bval x - v) <= c * (uu * m) /\ Rabs v <= m.
(** sizes far from overflow and underflow *)
Definition rg (n : Z) (m : R) : Prop := bpow radix2 (- n) <= m <= bpow radix2 n.
(** coefficients whose product with 2^-53 is below 1/2000 *)
Definition cb (c : R) : Prop := 0 <= c <= 4398046511104.

Lemma uu_val' : uu = / 9007199254740992. Proof. unfold uu. cbn. lra. Qed.
Lemma cb_uu c : cb c -> 0 <= c * uu <= 1 / 2000.
Proof. intros [H1 H2]. rewrite uu_val'. split; [apply Rmult_le_pos; lra|]. lra. Qed.
Lemma rg_pos n m : rg n m -> 0 < m. Proof. intros [H _]. pose proof (bpow_gt_0 radix2 (- n)). lra. Qed.
Lemma rg_weak n n' m : (n <= n')%Z -> rg n m -> rg n' m.
Proof.
  intros H [H1 H2]. split; [eapply Rle_trans; [|exact H1] | eapply Rle_trans; [exact H2|]]; apply bpow_le; lia.
Qed.
Lemma rg_mul n n' m m' : rg n m -> rg n' m' -> rg (n + n') (m * m').
Proof.
  intros H H'. pose proof (rg_pos _ _ H) as Q1. pose proof (rg_pos _ _ H') as Q2. destruct H as [H1 H2], H' as [H3 H4]. split.
  - replace (- (n + n'))%Z with (- n + - n')%Z by lia. rewrite bpow_plus. apply Rmult_le_compat; auto using bpow_ge_0.
  - rewrite bpow_plus. apply Rmult_le_compat; lra.
Qed.
Lemma rg_scale n m k : rg n m -> 1 <= k <= 8 -> rg (n + 3) (k * m).
Proof.
  intros H Hk. pose proof (rg_pos _ _ H) as P. destruct H as [H1 H2]. split.
  - eapply Rle_trans with m; [eapply Rle_trans; [|exact H1]; apply bpow_le; lia | nra].
  - rewrite bpow_plus. change (bpow radix2 3) with 8. pose proof (bpow_gt_0 radix2 n). rewrite (Rmult_comm (bpow radix2 n)). apply Rmult_le_compat; lra.
Qed.
Lemma rg_1 n : (0 <= n)%Z -> rg n 1.
Proof. intros H. split; [change 1 with (bpow radix2 0) | change 1 with (bpow radix2 0)]; apply bpow_le; lia. Qed.
Lemma ee_rg n m : (n <= 900)%Z -> rg n m -> ee <= 1 / 1000 * (uu * m).
Proof.
  intros N [H _]. apply Rle_trans with (1 / 1000 * (uu * bpow radix2 (-900))).
  - unfold ee, uu. rewrite <- bpow_plus. replace (-1075)%Z with (-122 + (-53 + -900))%Z by lia. rewrite bpow_plus.
    apply Rmult_le_compat_r; [apply bpow_ge_0|]. apply Rle_trans with (bpow radix2 (-10)); [apply bpow_le; lia | cbn; lra].
  - apply Rmult_le_compat_l; [lra|]. apply Rmult_le_compat_l; [left; apply uu_pos|]. eapply Rle_trans; [|exact H]. apply bpow_le. lia.
Qed.

Lemma tr_size c m x v : cb c -> tr c m x v -> Rabs (bval x) <= 2001 / 2000 * m.
Proof.
  intros C (F & E & B). pose proof (cb_uu c C) as [C1 C2]. pose proof (Rabs_pos v). replace (bval x) with ((bval x - v) + v) by ring.
  eapply Rle_trans; [apply Rabs_triang|]. assert (c * (uu * m) <= 1 / 2000 * m) by (rewrite <- Rmult_assoc; apply Rmult_le_compat_r; lra). lra.
Qed.
Lemma tr_weak c c' m x v : c <= c' -> 0 <= m -> tr c m x v -> tr c' m x v.
Proof.
  intros H M (F & E & B). split; [exact F|]. split; [|exact B]. eapply Rle_trans; [exact E|]. pose proof uu_pos. apply Rmult_le_compat_r; [apply Rmult_le_pos; lra | exact H].
Qed.
Lemma tr_mag c m k m' x v : 0 <= c -> m <= k * m' -> Rabs v <= m' -> tr c m x v -> tr (c * k) m' x v.
Proof.
  intros C H B (F & E & _). split; [exact F|]. split; [|exact B]. eapply Rle_trans; [exact E|]. pose proof uu_pos.
  replace (c * k * (uu * m')) with (c * (uu * (k * m'))) by ring. apply Rmult_le_compat_l; [exact C|]. apply Rmult_le_compat_l; lra.
Qed.
Lemma tr_exact x m : bfin x -> Rabs (bval x) <= m -> tr 0 m x (bval x).
Proof. intros F B. split; [exact F|]. split; [|exact B]. replace (bval x - bval x) with 0 by ring. rewrite Rabs_R0. lra. Qed.

Lemma tr_rnd c m z x v : cb c -> rg 900 m -> bfin z -> bval z = rnd x -> Rabs (x - v) <= c * (uu * m) -> Rabs v <= m -> tr (c + 2) m z v.
Proof.
  intros C M F V E B. split; [exact F|]. split; [|exact B]. rewrite V. pose proof (rnd_err x) as R. pose proof uu_pos as U. pose proof (cb_uu c C) as [C1 C2].
  pose proof (ee_rg 900 m ltac:(lia) M) as EE. pose proof (rg_pos _ _ M) as MP.
  assert (X : Rabs x <= 2001 / 2000 * m).
  { replace x with ((x - v) + v) by ring. eapply Rle_trans; [apply Rabs_triang|]. assert (c * (uu * m) <= 1 / 2000 * m) by (rewrite <- Rmult_assoc; apply Rmult_le_compat_r; lra). lra. }
  assert (uu * Rabs x <= 2001 / 2000 * (uu * m)) by (eapply Rle_trans; [apply Rmult_le_compat_l; [lra | exact X]|]; lra).
  replace (rnd x - v) with ((rnd x - x) + (x - v)) by ring. eapply Rle_trans; [apply Rabs_triang|].
  assert (0 < uu * m) by (apply Rmult_lt_0_compat; lra). lra.
Qed.
Lemma in_rg x v c m : cb c -> rg 900 m -> Rabs (x - v) <= c * (uu * m) -> Rabs v <= m -> Rlt_bool (Rabs (rnd x)) (bpow radix2 1024) = true.
Proof.
  intros C M E B. apply in_range. pose proof (cb_uu c C) as [C1 C2]. pose proof (rg_pos _ _ M) as MP.
  replace x with ((x - v) + v) by ring. eapply Rle_trans; [apply Rabs_triang|].
  assert (c * (uu * m) <= 1 / 2000 * m) by (rewrite <- Rmult_assoc; apply Rmult_le_compat_r; lra).
  destruct M as [_ M]. apply Rle_trans with (2 * bpow radix2 900); [lra|]. change 2 with (bpow radix2 1) at 1. rewrite <- bpow_plus. apply bpow_le. lia.
Qed.

Lemma tr_mul c c' m m' x y v w : cb c -> cb c' -> cb (1001 / 1000 * (c + c')) -> rg 900 (m * m') -> tr c m x v -> tr c' m' y w ->
  tr (1001 / 1000 * (c + c') + 2) (m * m') (b_mul x y) (v * w).
Proof.
  intros C C' C2 M (Fx & Ex & Bx) (Fy & Ey & By). pose proof uu_pos as U. pose proof (cb_uu c C) as [H1 H2]. pose proof (cb_uu c' C') as [H3 H4].
  assert (E : Rabs (bval x * bval y - v * w) <= 1001 / 1000 * (c + c') * (uu * (m * m'))).
  { replace (bval x * bval y - v * w) with ((bval x - v) * w + v * (bval y - w) + (bval x - v) * (bval y - w)) by ring.
    eapply Rle_trans; [apply Rabs_triang|]. eapply Rle_trans; [apply Rplus_le_compat_r, Rabs_triang|]. rewrite !Rabs_mult.
    pose proof (Rabs_pos (bval x - v)) as P1. pose proof (Rabs_pos (bval y - w)) as P2. pose proof (Rabs_pos v) as P3. pose proof (Rabs_pos w) as P4.
    assert (A1 : Rabs (bval x - v) * Rabs w <= c * (uu * m) * m') by (apply Rmult_le_compat; auto).
    assert (A2 : Rabs v * Rabs (bval y - w) <= m * (c' * (uu * m'))) by (apply Rmult_le_compat; auto).
    assert (A3 : Rabs (bval x - v) * Rabs (bval y - w) <= c * (uu * m) * (c' * (uu * m'))) by (apply Rmult_le_compat; auto).
    assert (M0 : 0 <= uu * (m * m')) by (apply Rmult_le_pos; [lra|]; apply Rmult_le_pos; lra).
    assert (A4 : c * (uu * m) * (c' * (uu * m')) <= 1 / 2000 * (c' * (uu * (m * m')))).
    { replace (c * (uu * m) * (c' * (uu * m'))) with (c * uu * (c' * (uu * (m * m')))) by ring. apply Rmult_le_compat_r; [apply Rmult_le_pos; [apply C' | exact M0] | lra]. }
    assert (0 <= c' * (uu * (m * m'))) by (apply Rmult_le_pos; [apply C' | exact M0]). assert (0 <= c * (uu * (m * m'))) by (apply Rmult_le_pos; [apply C | exact M0]).
    replace (c * (uu * m) * m') with (c * (uu * (m * m'))) in A1 by ring. replace (m * (c' * (uu * m'))) with (c' * (uu * (m * m'))) in A2 by ring. lra. }
  assert (B : Rabs (v * w) <= m * m') by (rewrite Rabs_mult; apply Rmult_le_compat; auto using Rabs_pos).
  destruct (mul_range x y Fx Fy (in_rg _ _ _ _ C2 M E B)) as [F V]. exact (tr_rnd _ _ _ _ _ C2 M F V E B).
Qed.
Lemma tr_add c c' m x y v w : cb c -> cb c' -> rg 900 (2 * m) -> tr c m x v -> tr c' m y w -> tr ((c + c') / 2 + 2) (2 * m) (b_add x y) (v + w).
Proof.
  intros C C' M (Fx & Ex & Bx) (Fy & Ey & By). assert (C2 : cb ((c + c') / 2)) by (unfold cb in *; lra).
  assert (E : Rabs (bval x + bval y - (v + w)) <= (c + c') / 2 * (uu * (2 * m))).
  { replace (bval x + bval y - (v + w)) with ((bval x - v) + (bval y - w)) by ring. eapply Rle_trans; [apply Rabs_triang|]. lra. }
  assert (B : Rabs (v + w) <= 2 * m) by (eapply Rle_trans; [apply Rabs_triang|]; lra).
  destruct (add_range x y Fx Fy (in_rg _ _ _ _ C2 M E B)) as [F V]. exact (tr_rnd _ _ _ _ _ C2 M F V E B).
Qed.
Lemma tr_sub c c' m x y v w : cb c -> cb c' -> rg 900 (2 * m) -> tr c m x v -> tr c' m y w -> tr ((c + c') / 2 + 2) (2 * m) (b_sub x y) (v - w).
Proof.
  intros C C' M (Fx & Ex & Bx) (Fy & Ey & By). assert (C2 : cb ((c + c') / 2)) by (unfold cb in *; lra).
  assert (E : Rabs (bval x - bval y - (v - w)) <= (c + c') / 2 * (uu * (2 * m))).
  { replace (bval x - bval y - (v - w)) with ((bval x - v) + - (bval y - w)) by ring. eapply Rle_trans; [apply Rabs_triang|]. rewrite Rabs_Ropp. lra. }
  assert (B : Rabs (v - w) <= 2 * m) by (unfold Rminus; eapply Rle_trans; [apply Rabs_triang|]; rewrite Rabs_Ropp; lra).
  destruct (sub_range x y Fx Fy (in_rg _ _ _ _ C2 M E B)) as [F V]. exact (tr_rnd _ _ _ _ _ C2 M F V E B).
Qed.
Lemma tr_opp c m x v : tr c m x v -> tr c m (Bopp x) (- v).
Proof.
  intros (F & E & B). split; [unfold bfin; rewrite is_finite_Bopp; exact F|]. unfold bval. rewrite B2R_Bopp. fold (bval x). split; [|rewrite Rabs_Ropp; exact B].
  replace (- bval x - - v) with (- (bval x - v)) by ring. rewrite Rabs_Ropp. exact E.
Qed.
(** A quotient at most 1 in size: the error is relative to the divisor. *)
Lemma tr_quot c c' m m' k x y v w : cb (1001 / 1000 * (k * (c + c'))) -> 0 <= c -> 0 <= c' -> 0 <= k -> 0 < w -> m <= k * w -> m' <= k * w -> Rabs v <= w ->
  tr c m x v -> tr c' m' y w -> tr (1001 / 1000 * (k * (c + c')) + 2) 1 (b_div x y) (v / w) /\ 0 < bval y.
Proof.
  intros C Hc Hc' Hk W HM HM' HV (Fx & Ex & Bx) (Fy & Ey & By). pose proof uu_pos as U. pose proof (cb_uu _ C) as [C1 C2].
  assert (KC : k * c' * uu <= 1 / 2000) by (assert (0 <= k * c * uu) by (apply Rmult_le_pos; [apply Rmult_le_pos|]; lra); assert (0 <= k * c' * uu) by (apply Rmult_le_pos; [apply Rmult_le_pos|]; lra); lra).
  assert (EY : Rabs (bval y - w) <= k * c' * uu * w).
  { eapply Rle_trans; [exact Ey|]. replace (k * c' * uu * w) with (c' * (uu * (k * w))) by ring. apply Rmult_le_compat_l; [exact Hc'|]. apply Rmult_le_compat_l; lra. }
  assert (EX : Rabs (bval x - v) <= k * c * uu * w).
  { eapply Rle_trans; [exact Ex|]. replace (k * c * uu * w) with (c * (uu * (k * w))) by ring. apply Rmult_le_compat_l; [exact Hc|]. apply Rmult_le_compat_l; lra. }
  assert (YW : 1999 / 2000 * w <= bval y). { apply Rabs_le_inv in EY. assert (k * c' * uu * w <= 1 / 2000 * w) by (apply Rmult_le_compat_r; lra). lra. }
  assert (Y0 : 0 < bval y) by lra. split; [|exact Y0].
  assert (B : Rabs (v / w) <= 1).
  { unfold Rdiv. rewrite Rabs_mult, Rabs_inv, (Rabs_right w) by lra. apply Rmult_le_reg_r with w; [exact W|]. rewrite Rmult_assoc, Rinv_l, Rmult_1_r, Rmult_1_l by lra. exact HV. }
  assert (E : Rabs (bval x / bval y - v / w) <= 1001 / 1000 * (k * (c + c')) * (uu * 1)).
  { replace (bval x / bval y - v / w) with (((bval x - v) + v / w * (w - bval y)) / bval y) by (field; lra).
    unfold Rdiv at 1. rewrite Rabs_mult, Rabs_inv, (Rabs_right (bval y)) by lra.
    apply Rmult_le_reg_r with (bval y); [exact Y0|]. rewrite Rmult_assoc, Rinv_l, Rmult_1_r by lra.
    assert (T : Rabs (bval x - v + v / w * (w - bval y)) <= k * (c + c') * uu * w).
    { eapply Rle_trans; [apply Rabs_triang|]. rewrite Rabs_mult. rewrite (Rabs_minus_sym w).
      assert (Rabs (v / w) * Rabs (bval y - w) <= 1 * (k * c' * uu * w)) by (apply Rmult_le_compat; auto using Rabs_pos). lra. }
    eapply Rle_trans; [exact T|]. assert (0 <= k * (c + c') * uu) by (apply Rmult_le_pos; [apply Rmult_le_pos|]; lra).
    assert (k * (c + c') * uu * (1999 / 2000 * w) <= k * (c + c') * uu * bval y) by (apply Rmult_le_compat_l; lra).
    assert (0 <= k * (c + c') * uu * w) by (apply Rmult_le_pos; lra). lra. }
  pose proof (rg_1 900 ltac:(lia)) as M1.
  destruct (div_range x y Fx ltac:(lra) (in_rg _ _ _ _ C M1 E B)) as [F V]. exact (tr_rnd _ _ _ _ _ C M1 F V E B).
Qed.

(* ---- dot products and lengths ---- *)
Lemma rnd_0 : rnd 0 = 0. Proof. apply rnd_exact. apply generic_format_0. Qed.
Lemma rnd_nonneg x : 0 <= x -> 0 <= rnd x. Proof. intros H. rewrite <- rnd_0. apply rnd_le. exact H. Qed.
Lemma dot_self_b dot : In dot b_dots -> forall a b c, bfin (dot [a; b; c] [a; b; c]) -> 0 <= bval (dot [a; b; c] [a; b; c]).
Proof.
  assert (P : forall s x, bfin (b_add s (b_mul x x)) -> (bfin s -> 0 <= bval s) -> 0 <= bval (b_add s (b_mul x x))).
  { intros s x F H. destruct (add_fin _ _ F) as [Fs Fm]. rewrite (add_val _ _ F). apply rnd_nonneg. rewrite (mul_val _ _ Fm).
    pose proof (rnd_nonneg _ (Rle_0_sqr (bval x))). unfold Rsqr in *. specialize (H Fs). lra. }
  assert (Q : forall s x, bfin (b_fma x x s) -> (bfin s -> 0 <= bval s) -> 0 <= bval (b_fma x x s)).
  { intros s x F H. destruct (fma_fin _ _ _ F) as (_ & _ & Fs). rewrite (fma_val _ _ _ F). apply rnd_nonneg. pose proof (Rle_0_sqr (bval x)). unfold Rsqr in *. specialize (H Fs). lra. }
  assert (Z : bfin b_zero -> 0 <= bval b_zero) by (intros _; right; reflexivity).
  intros HD a b c. repeat (destruct HD as [<- | HD]); [| | | | | | destruct HD];
    cbn [combine rev app sum_seq sum_fma sum_pairs sum_lanes fold_left fst snd]; intros F;
    ((apply P; [exact F|]; intros F1; apply P; [exact F1|]; intros F2; apply P; [exact F2 | exact Z]) ||
     (apply Q; [exact F|]; intros F1; apply Q; [exact F1|]; intros F2; apply Q; [exact F2 | exact Z])).
Qed.
Lemma upto_tr c m x v : cb c -> rg 390 m -> tr c m x v -> upto 400 x.
Proof.
  intros C M H. split; [apply H|]. eapply Rle_trans; [apply (tr_size _ _ _ _ C H)|]. destruct M as [_ M]. pose proof (bpow_gt_0 radix2 390).
  apply Rle_trans with (2 * bpow radix2 390); [lra|]. change 2 with (bpow radix2 1) at 1. rewrite <- bpow_plus. apply bpow_le. lia.
Qed.
Lemma tr_dot dot c c' m m' a b d x y z a' b' d' x' y' z' : In dot b_dots -> cb c -> cb c' -> cb (1001 / 1000 * (c + c') + 8) -> rg 390 m -> rg 390 m' ->
  tr c m a a' -> tr c m b b' -> tr c m d d' -> tr c' m' x x' -> tr c' m' y y' -> tr c' m' z z' ->
  tr (1001 / 1000 * (c + c') + 8) (3 * (m * m')) (dot [a; b; d] [x; y; z]) (a' * x' + b' * y' + d' * z').
Proof.
  intros HD C C' C2 M M' Ta Tb Td Tx Ty Tz.
  assert (FD : bfin (dot [a; b; d] [x; y; z])) by (apply (dot3_fin dot HD); [exact (upto_tr _ _ _ _ C M Ta) | exact (upto_tr _ _ _ _ C M Tb) | exact (upto_tr _ _ _ _ C M Td) | exact (upto_tr _ _ _ _ C' M' Tx) | exact (upto_tr _ _ _ _ C' M' Ty) | exact (upto_tr _ _ _ _ C' M' Tz)]).
  destruct (dot_ok dot HD _ _ _ _ _ _ FD) as [_ ED]. set (r := bval (dot _ _)) in *.
  pose proof (rg_pos _ _ M) as P. pose proof (rg_pos _ _ M') as P'. pose proof uu_pos as U.
  assert (MM : 0 < uu * (m * m')) by (apply Rmult_lt_0_compat; [lra|]; apply Rmult_lt_0_compat; lra).
  assert (EE : ee <= 1 / 1000 * (uu * (m * m'))). { apply (ee_rg 780); [lia|]. apply (rg_mul 390 390); assumption. }
  assert (PR : forall s s' t t', tr c m s s' -> tr c' m' t t' ->
    Rabs (bval s * bval t - s' * t') <= (2001 / 2000 * (c + c')) * (uu * (m * m')) /\ Rabs (bval s * bval t) <= 1002 / 1000 * (m * m') /\ Rabs (s' * t') <= m * m').
  { intros s s' t t' Hs Ht. pose proof (tr_size _ _ _ _ C Hs) as S1. pose proof (tr_size _ _ _ _ C' Ht) as S2. destruct Hs as (_ & Es & Bs), Ht as (_ & Et & Bt).
    split; [|split].
    - replace (bval s * bval t - s' * t') with ((bval s - s') * bval t + s' * (bval t - t')) by ring. eapply Rle_trans; [apply Rabs_triang|]. rewrite !Rabs_mult.
      assert (Rabs (bval s - s') * Rabs (bval t) <= c * (uu * m) * (2001 / 2000 * m')) by (apply Rmult_le_compat; auto using Rabs_pos).
      assert (Rabs s' * Rabs (bval t - t') <= m * (c' * (uu * m'))) by (apply Rmult_le_compat; auto using Rabs_pos).
      assert (0 <= c' * (uu * (m * m'))) by (apply Rmult_le_pos; [apply C' | lra]). lra.
    - rewrite Rabs_mult. assert (Rabs (bval s) * Rabs (bval t) <= 2001 / 2000 * m * (2001 / 2000 * m')) by (apply Rmult_le_compat; auto using Rabs_pos).
      assert (0 < m * m') by (apply Rmult_lt_0_compat; lra). lra.
    - rewrite Rabs_mult. apply Rmult_le_compat; auto using Rabs_pos. }
  destruct (PR _ _ _ _ Ta Tx) as (A1 & A2 & A3). destruct (PR _ _ _ _ Tb Ty) as (B1 & B2 & B3). destruct (PR _ _ _ _ Td Tz) as (D1 & D2 & D3).
  split; [exact FD|]. fold r. split.
  - set (S := bval a * bval x + bval b * bval y + bval d * bval z) in *.
    assert (SE : Rabs (S - (a' * x' + b' * y' + d' * z')) <= 3 * ((2001 / 2000 * (c + c')) * (uu * (m * m')))).
    { unfold S. replace (_ - _) with ((bval a * bval x - a' * x') + (bval b * bval y - b' * y') + (bval d * bval z - d' * z')) by ring.
      eapply Rle_trans; [apply Rabs_triang|]. eapply Rle_trans; [apply Rplus_le_compat_r, Rabs_triang|]. lra. }
    replace (r - (a' * x' + b' * y' + d' * z')) with ((r - S) + (S - (a' * x' + b' * y' + d' * z'))) by ring.
    eapply Rle_trans; [apply Rabs_triang|].
    assert (7 * uu * (Rabs (bval a * bval x) + Rabs (bval b * bval y) + Rabs (bval d * bval z)) <= 7 * uu * (3 * (1002 / 1000 * (m * m')))) by (apply Rmult_le_compat_l; lra).
    assert (0 <= (c + c') * (uu * (m * m'))) by (apply Rmult_le_pos; [unfold cb in *; lra | lra]). lra.
  - eapply Rle_trans; [apply Rabs_triang|]. eapply Rle_trans; [apply Rplus_le_compat_r, Rabs_triang|]. lra.
Qed.

Lemma sqrt_range0 x : bfin x -> 0 <= bval x -> isv (b_sqrt x) (rnd (sqrt (bval x))).
Proof.
  intros F [P | P]; [apply sqrt_range; assumption|]. destruct x as [s| | |s mm e H]; try discriminate.
  - cbn. rewrite sqrt_0, rnd_0. split; reflexivity.
  - exfalso. unfold bval in P. cbn [B2R] in P. symmetry in P. apply Flocq.Core.Float_prop.eq_0_F2R in P. destruct s; discriminate.
Qed.
(** the computed length of a vector, relative to the length of the stored vector *)
Definition blen (a b d : b64) : R := sqrt (bval a * bval a + bval b * bval b + bval d * bval d).
Lemma len_rel dot a b d : In dot b_dots -> upto 400 a -> upto 400 b -> upto 400 d ->
  let y := dot [a; b; d] [a; b; d] in isv (b_sqrt y) (rnd (sqrt (bval y))) /\ 0 <= bval (b_sqrt y) /\ Rabs (bval (b_sqrt y) - blen a b d) <= 6 * uu * blen a b d + bpow radix2 (-530).
Proof.
  intros HD Ua Ub Ud y. assert (FD : bfin y) by (apply (dot3_fin dot HD); assumption).
  pose proof (dot_self_b dot HD a b d FD) as Y0. fold y in Y0. pose proof (sqrt_range0 y FD Y0) as R. split; [exact R|]. destruct R as [F V].
  rewrite V. split; [apply rnd_nonneg, sqrt_pos|].
  destruct (dot_ok dot HD _ _ _ _ _ _ FD) as [_ ED]. fold y in ED.
  rewrite !(Rabs_right (bval _ * bval _)) in ED by (apply Rle_ge, Rle_0_sqr). unfold blen. set (S := bval a * bval a + bval b * bval b + bval d * bval d) in *.
  assert (S0 : 0 <= S) by (unfold S; pose proof (Rle_0_sqr (bval a)); pose proof (Rle_0_sqr (bval b)); pose proof (Rle_0_sqr (bval d)); unfold Rsqr in *; lra).
  pose proof uu_pos as U. pose proof uu_small as US. pose proof ee_pos as EP.
  set (t := sqrt (10 * ee)). assert (T0 : 0 <= t) by apply sqrt_pos. assert (TT : t * t = 10 * ee) by (apply sqrt_sqrt; lra).
  assert (TS : t <= bpow radix2 (-535)).
  { unfold t. rewrite <- (sqrt_square (bpow radix2 (-535))) by apply bpow_ge_0. apply sqrt_le_1_alt. rewrite <- bpow_plus. unfold ee.
    replace (-535 + -535)%Z with (5 + -1075)%Z by lia. rewrite bpow_plus. change (bpow radix2 5) with 32. pose proof (bpow_gt_0 radix2 (-1075)). lra. }
  set (q := sqrt S). assert (Q0 : 0 <= q) by apply sqrt_pos. assert (QQ : q * q = S) by (apply sqrt_sqrt; exact S0).
  set (h := sqrt (bval y)). assert (H0 : 0 <= h) by apply sqrt_pos. assert (HH : h * h = bval y) by (apply sqrt_sqrt; exact Y0).
  apply Rabs_le_inv in ED. rewrite <- QQ, <- HH, <- TT in ED.
  assert (HU : h <= q * (1 + 4 * uu) + t).
  { apply Rnot_lt_le. intros N. assert (Z0 : 0 <= q * (1 + 4 * uu) + t) by (apply Rplus_le_le_0_compat; [apply Rmult_le_pos; lra | lra]).
    assert ((q * (1 + 4 * uu) + t) * (q * (1 + 4 * uu) + t) < h * h) by (apply Rmult_le_0_lt_compat; lra).
    assert (0 <= q * t) by (apply Rmult_le_pos; lra). assert (0 <= q * q) by (apply Rmult_le_pos; lra). assert (0 <= uu * (q * q)) by (apply Rmult_le_pos; lra).
    assert (0 <= uu * (q * t)) by (apply Rmult_le_pos; lra). assert (0 <= uu * uu * (q * q)) by (apply Rmult_le_pos; [apply Rmult_le_pos|]; lra). lra. }
  assert (HL : q * (1 - 4 * uu) - t <= h).
  { apply Rnot_lt_le. intros N. assert (N1 : h + t < q * (1 - 4 * uu)) by lra.
    assert ((h + t) * (h + t) < q * (1 - 4 * uu) * (q * (1 - 4 * uu))) by (apply Rmult_le_0_lt_compat; lra).
    assert (0 <= h * t) by (apply Rmult_le_pos; lra). assert (0 <= uu * (q * q)) by (apply Rmult_le_pos; [lra|]; apply Rmult_le_pos; lra).
    assert (16 * uu * uu * (q * q) <= uu * (q * q)). { replace (16 * uu * uu * (q * q)) with (16 * uu * (uu * (q * q))) by ring. rewrite <- (Rmult_1_l (uu * (q * q))) at 2. apply Rmult_le_compat_r; lra. } lra. }
  pose proof (rnd_err h) as RE. rewrite (Rabs_right h) in RE by lra.
  assert (EP2 : ee <= bpow radix2 (-535)) by (apply bpow_le; lia).
  assert (UH : uu * h <= uu * q * (1 + 4 / 1000000) + uu * t).
  { eapply Rle_trans; [apply Rmult_le_compat_l; [lra | exact HU]|]. assert (uu * (uu * q) <= 1 / 1000000 * (uu * q)) by (apply Rmult_le_compat_r; [apply Rmult_le_pos|]; lra). lra. }
  assert (UT : uu * t <= t) by (rewrite <- (Rmult_1_l t) at 2; apply Rmult_le_compat_r; lra).
  assert (B5 : bpow radix2 (-530) = 32 * bpow radix2 (-535)) by (replace (-530)%Z with (5 + -535)%Z by lia; rewrite bpow_plus; reflexivity).
  pose proof (bpow_gt_0 radix2 (-535)) as BP. assert (0 <= uu * q) by (apply Rmult_le_pos; lra).
  rewrite B5. apply Rabs_le_inv in RE. apply Rabs_le. lra.
Qed.

(* ---- vectors ---- *)
(** a stored vector stands for v up to c * 2^-53 * m in each entry, and |v| <= m *)
Definition vtr (c m : R) (l : list b64) (v : vec3) : Prop :=
  exists a b d, l = [a; b; d] /\ tr c m a (vx v) /\ tr c m b (vy v) /\ tr c m d (vz v) /\ norm v <= m.
Lemma entry_le v : Rabs (vx v) <= norm v /\ Rabs (vy v) <= norm v /\ Rabs (vz v) <= norm v.
Proof.
  assert (H : forall a b, 0 <= b -> a * a <= b * b -> Rabs a <= b) by (intros a b B L; rewrite <- (Rabs_right b) by lra; apply Rsqr_le_abs_0; unfold Rsqr; lra).
  pose proof (norm_nonneg v). pose proof (norm_sq v) as S. destruct v as [x y z]; unfold dot in S; cbn [vx vy vz] in *.
  pose proof (Rle_0_sqr x); pose proof (Rle_0_sqr y); pose proof (Rle_0_sqr z); unfold Rsqr in *. repeat split; apply H; lra.
Qed.
Lemma norm_entries v e : 0 <= e -> Rabs (vx v) <= e -> Rabs (vy v) <= e -> Rabs (vz v) <= e -> norm v <= 1733 / 1000 * e.
Proof.
  intros E X Y Z. assert (H : forall a, Rabs a <= e -> a * a <= e * e) by (intros a A; pose proof (Rsqr_abs a) as Q; unfold Rsqr in Q; rewrite Q; apply Rmult_le_compat; auto using Rabs_pos).
  apply H in X. apply H in Y. apply H in Z. pose proof (norm_nonneg v) as N. pose proof (norm_sq v) as S. unfold dot in S.
  apply Rnot_lt_le. intros L. assert (1733 / 1000 * e * (1733 / 1000 * e) < norm v * norm v) by (apply Rmult_le_0_lt_compat; lra). assert (0 <= e * e) by (apply Rmult_le_pos; lra). lra.
Qed.
Lemma vtr_weak c c' m l v : c <= c' -> 0 <= m -> vtr c m l v -> vtr c' m l v.
Proof. intros H M (a & b & d & -> & A & B & D & N). exists a, b, d. split; [reflexivity|]. split; [exact (tr_weak _ _ _ _ _ H M A)|]. split; [exact (tr_weak _ _ _ _ _ H M B)|]. split; [exact (tr_weak _ _ _ _ _ H M D) | exact N]. Qed.
Lemma tr_norm dot c m l v : In dot b_dots -> cb c -> rg 390 m -> vtr c m l v -> tr (c + 8) (2 * m) (b_sqrt (dot l l)) (norm v) /\ 0 <= bval (b_sqrt (dot l l)).
Proof.
  intros HD C M (a & b & d & -> & A & B & D & N).
  destruct (len_rel dot a b d HD (upto_tr _ _ _ _ C M A) (upto_tr _ _ _ _ C M B) (upto_tr _ _ _ _ C M D)) as ([F V] & P & E).
  set (n := b_sqrt _) in *. split; [|exact P]. split; [exact F|]. pose proof (rg_pos _ _ M) as MP. split; [|pose proof (norm_nonneg v); rewrite Rabs_right; lra].
  pose proof uu_pos as U. pose proof (cb_uu c C) as [C1 C2].
  set (w := V3 (bval a) (bval b) (bval d)). assert (BL : blen a b d = norm w) by reflexivity. rewrite BL in E.
  assert (CM : 0 <= c * (uu * m)) by (rewrite <- Rmult_assoc; apply Rmult_le_pos; lra).
  assert (W : norm (vsub w v) <= 1733 / 1000 * (c * (uu * m))).
  { apply norm_entries; [exact CM| | |]; unfold w; cbn [vx vy vz vsub]; [apply A | apply B | apply D]. }
  assert (W1 : Rabs (norm w - norm v) <= norm (vsub w v)).
  { apply Rabs_le. pose proof (norm_triangle (vsub v w) w) as T1. pose proof (norm_triangle (vsub w v) v) as T2. rewrite !vsub_vadd in *. rewrite (norm_vsub_sym v w) in T1. lra. }
  assert (W2 : norm w <= 101 / 100 * m).
  { apply Rabs_le_inv in W1. assert (c * (uu * m) <= 1 / 2000 * m) by (rewrite <- Rmult_assoc; apply Rmult_le_compat_r; lra). lra. }
  assert (UM : 0 < uu * m) by (apply Rmult_lt_0_compat; lra).
  assert (T : bpow radix2 (-530) <= 1 / 1000 * (uu * m)).
  { destruct M as [M _]. apply Rle_trans with (1 / 1000 * (uu * bpow radix2 (- (390)))); [|apply Rmult_le_compat_l; [lra|]; apply Rmult_le_compat_l; lra].
    unfold uu. rewrite <- bpow_plus. replace (-530)%Z with (-87 + (-53 + - (390)))%Z by lia. rewrite bpow_plus. apply Rmult_le_compat_r; [apply bpow_ge_0|].
    apply Rle_trans with (bpow radix2 (-10)); [apply bpow_le; lia | cbn; lra]. }
  assert (UW : 6 * uu * norm w <= 6 * (101 / 100) * (uu * m)) by (replace (6 * (101 / 100) * (uu * m)) with (6 * uu * (101 / 100 * m)) by ring; apply Rmult_le_compat_l; lra).
  replace (bval n - norm v) with ((bval n - norm w) + (norm w - norm v)) by ring. eapply Rle_trans; [apply Rabs_triang|]. lra.
Qed.
Lemma vtr_dot dot c c' m m' l l' v w : In dot b_dots -> cb c -> cb c' -> cb (1001 / 1000 * (c + c') + 8) -> rg 390 m -> rg 390 m' -> vtr c m l v -> vtr c' m' l' w ->
  tr (3 * (1001 / 1000 * (c + c') + 8)) (m * m') (dot l l') (LinAlg.dot v w).
Proof.
  intros HD C C' C2 M M' (a & b & d & -> & A & B & D & N) (x & y & z & -> & X & Y & Z & N').
  pose proof (tr_dot dot c c' m m' _ _ _ _ _ _ _ _ _ _ _ _ HD C C' C2 M M' A B D X Y Z) as T.
  rewrite (Rmult_comm 3). apply tr_mag with (m := 3 * (m * m')); [apply C2 | lra | | exact T].
  pose proof (dot_le_norm v w) as L1. pose proof (dot_le_norm (vneg v) w) as L2.
  assert (ND : LinAlg.dot (vneg v) w = - LinAlg.dot v w) by (destruct v, w; unfold LinAlg.dot, vneg; cbn; ring).
  assert (NN : norm (vneg v) = norm v) by (unfold norm, norm2; apply (f_equal sqrt); destruct v; unfold LinAlg.dot, vneg; cbn; ring).
  rewrite ND, NN in L2. pose proof (norm_nonneg v). pose proof (norm_nonneg w). assert (norm v * norm w <= m * m') by (apply Rmult_le_compat; lra). apply Rabs_le. lra.
Qed.
Lemma vtr_entries c m a b d v : tr c m a (vx v) -> tr c m b (vy v) -> tr c m d (vz v) -> norm v <= m -> vtr c m [a; b; d] v.
Proof. intros. exists a, b, d. auto. Qed.
(** sums and differences *)
Lemma vtr_add L dot c c' m l l' v w : cb c -> cb c' -> rg 390 m -> vtr c m l v -> vtr c' m l' w ->
  vtr ((c + c') / 2 + 2) (2 * m) (l_add (b64_arith L dot) l l') (vadd v w).
Proof.
  intros C C' M (a & b & d & -> & A & B & D & N) (x & y & z & -> & X & Y & Z & N'). assert (M2 : rg 900 (2 * m)) by (apply (rg_weak 393); [lia|]; apply (rg_scale 390); [exact M | lra]).
  unfold l_add, zip. cbn [map combine fst snd nadd b64_arith]. apply vtr_entries; cbn [vx vy vz vadd]; try (apply tr_add; assumption).
  eapply Rle_trans; [apply norm_triangle|]. lra.
Qed.
Lemma vtr_sub L dot c c' m l l' v w : cb c -> cb c' -> rg 390 m -> vtr c m l v -> vtr c' m l' w ->
  vtr ((c + c') / 2 + 2) (2 * m) (l_sub (b64_arith L dot) l l') (vsub v w).
Proof.
  intros C C' M (a & b & d & -> & A & B & D & N) (x & y & z & -> & X & Y & Z & N'). assert (M2 : rg 900 (2 * m)) by (apply (rg_weak 393); [lia|]; apply (rg_scale 390); [exact M | lra]).
  unfold l_sub, zip. cbn [map combine fst snd nsub b64_arith]. apply vtr_entries; cbn [vx vy vz vsub]; try (apply tr_sub; assumption).
  pose proof (norm_triangle v (vscale (-1) w)) as T.
  assert (E : vadd v (vscale (-1) w) = vsub v w) by la_ring.
  rewrite E in T. assert (NN : norm (vscale (-1) w) = norm w) by (unfold norm, norm2; apply (f_equal sqrt); destruct w; unfold LinAlg.dot, vscale; cbn; ring). rewrite NN in T. lra.
Qed.
Lemma vtr_scale L dot c c' m m' s l t v : cb c -> cb c' -> cb (1001 / 1000 * (c + c')) -> rg 390 m -> rg 390 m' -> tr c m s t -> vtr c' m' l v ->
  vtr (1001 / 1000 * (c + c') + 2) (m * m') (l_scale (b64_arith L dot) s l) (vscale t v).
Proof.
  intros C C' C2 M M' T (a & b & d & -> & A & B & D & N). assert (M2 : rg 900 (m * m')) by (apply (rg_weak 780); [lia|]; apply (rg_mul 390 390); assumption).
  unfold l_scale. cbn [map nmul b64_arith]. apply vtr_entries; cbn [vx vy vz vscale]; try (apply tr_mul; assumption).
  rewrite norm_vscale. apply Rmult_le_compat; [apply Rabs_pos | apply norm_nonneg | apply T | exact N].
Qed.
Lemma vtr_mag c m k m' l v : 0 <= c -> m <= k * m' -> norm v <= m' -> vtr c m l v -> vtr (c * k) m' l v.
Proof.
  intros C H B (a & b & d & -> & X & Y & Z & N). destruct (entry_le v) as (E1 & E2 & E3).
  apply vtr_entries; [| | | exact B]; apply tr_mag with (m := m); auto; lra.
Qed.
Lemma perp_le k v : unit3 k -> norm (perp k v) <= norm v.
Proof.
  intros U. pose proof (perp_norm k v U) as P. pose proof (norm_sq v) as S. pose proof (norm_sq (perp k v)) as S'. pose proof (norm_nonneg v). pose proof (norm_nonneg (perp k v)).
  apply Rnot_lt_le. intros N. assert (norm v * norm v < norm (perp k v) * norm (perp k v)) by (apply Rmult_le_0_lt_compat; lra).
  pose proof (Rle_0_sqr (LinAlg.dot v k)). unfold Rsqr in *. lra.
Qed.
(** the part orthogonal to an axis *)
Lemma vtr_perp L dot c c' m p k v h : In dot b_dots -> 0 <= c -> 0 <= c' -> cb (10 * (c + c') + 100) -> rg 390 m -> unit3 h -> vtr c m p v -> vtr c' 1 k h ->
  vtr (5 * c + 5 * c' + 32) m (l_sub (b64_arith L dot) p (l_scale (b64_arith L dot) (dot p k) k)) (perp h v).
Proof.
  intros HD C C' CB M U P K. pose proof (rg_pos _ _ M) as MP. assert (C1 : cb c) by (unfold cb in *; lra). assert (C2 : cb c') by (unfold cb in *; lra).
  assert (R1 : rg 390 1) by (apply rg_1; lia).
  assert (D : tr (3 * (1001 / 1000 * (c + c') + 8)) m (dot p k) (LinAlg.dot v h)).
  { rewrite <- (Rmult_1_r m). apply vtr_dot; auto. unfold cb in *; lra. }
  assert (S : vtr (1001 / 1000 * (3 * (1001 / 1000 * (c + c') + 8) + c') + 2) m (l_scale (b64_arith L dot) (dot p k) k) (vscale (LinAlg.dot v h) h)).
  { rewrite <- (Rmult_1_r m). apply vtr_scale; auto; try (rewrite Rmult_1_r); auto; unfold cb in *; lra. }
  eapply (vtr_weak (((c + (1001 / 1000 * (3 * (1001 / 1000 * (c + c') + 8) + c') + 2)) / 2 + 2) * 2)); [lra | lra|].
  apply vtr_mag with (m := 2 * m); [lra | lra | |].
  - destruct P as (? & ? & ? & _ & _ & _ & _ & N). pose proof (perp_le h v U). lra.
  - apply vtr_sub; auto; unfold cb in *; lra.
Qed.
(** normalisation: the error grows by the ratio of m and the length *)
Lemma vtr_dir L dot c m r l v : In dot b_dots -> 0 <= c -> cb (4 * (r * (c + 8))) -> 1 <= r -> rg 390 m -> 0 < norm v -> m <= r * norm v -> vtr c m l v ->
  vtr (4 * (r * (c + 8))) 1 (l_div (b64_arith L dot) l (l_norm (b64_arith L dot) l)) (dir v) /\ 0 < bval (l_norm (b64_arith L dot) l).
Proof.
  intros HD C CB R1 M NV MR V. pose proof (rg_pos _ _ M) as MP. assert (RC : c + 8 <= r * (c + 8)) by (rewrite <- (Rmult_1_l (c + 8)) at 1; apply Rmult_le_compat_r; lra).
  assert (C1 : cb c) by (unfold cb in *; lra). destruct (tr_norm dot c m l v HD C1 M V) as [TN _].
  destruct V as (a & b & d & -> & A & B & D & N). unfold l_div, l_norm. cbn [map ndiv nsqrt ndot b64_arith]. destruct (entry_le v) as (E1 & E2 & E3).
  set (n := b_sqrt _) in *.
  assert (TN' : tr (2 * (c + 8)) m n (norm v)) by (rewrite (Rmult_comm 2); apply tr_mag with (m := 2 * m); [lra | lra | rewrite Rabs_right; [lra | pose proof (norm_nonneg v); lra] | exact TN]).
  assert (Q : forall x w, tr c m x w -> Rabs w <= norm v -> tr (4 * (r * (c + 8))) 1 (b_div x n) (w / norm v) /\ 0 < bval n).
  { intros x w T W. destruct (tr_quot c (2 * (c + 8)) m m r x n w (norm v)) as [Q Y]; auto; try lra.
    - assert (r * c <= r * (c + 8)) by (apply Rmult_le_compat_l; lra). assert (0 <= r * c) by (apply Rmult_le_pos; lra). unfold cb in *. lra.
    - split; [|exact Y]. eapply tr_weak; [|lra | exact Q]. assert (r * c <= r * (c + 8)) by (apply Rmult_le_compat_l; lra). lra. }
  split; [|apply (Q a (vx v) A E1)].
  apply vtr_entries; unfold dir; cbn [vx vy vz vscale].
  - rewrite (Rmult_comm (/ norm v)). apply Q; auto.
  - rewrite (Rmult_comm (/ norm v)). apply Q; auto.
  - rewrite (Rmult_comm (/ norm v)). apply Q; auto.
  - rewrite norm_vscale, Rabs_right by (left; apply Rinv_0_lt_compat; exact NV). rewrite Rinv_l; lra.
Qed.
