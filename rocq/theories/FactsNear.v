(** Absolute errors of binary64 operations on numbers of moderate size. *)
From Coq Require Import Reals ZArith List Bool Lra Lia Psatz.
From Flocq Require Import Core.Core IEEE754.BinarySingleNaN.
From Verif Require Import LinAlg RealAux Py FactsReal ModelFloat SpecRound FactsB64 FactsExact FactsTrack FactsSumsq SpecArc SpecArc2 PropNorm PropSlerp.
Import ListNotations.
Open Scope R_scope.

Lemma near_weak e e' x v : e <= e' -> near e x v -> near e' x v.
Proof. intros H [F E]. split; [exact F | lra]. Qed.
Lemma near_exact e x v : 0 <= e -> bfin x -> bval x = v -> near e x v.
Proof. intros H F <-. split; [exact F|]. rewrite Rminus_diag_eq, Rabs_R0 by reflexivity. exact H. Qed.
Lemma near_size e x v m : near e x v -> Rabs v <= m -> Rabs (bval x) <= m + e.
Proof. intros [_ E] B. apply Rabs_le_inv in E. apply Rabs_le_inv in B. apply Rabs_le. lra. Qed.
(** one rounding *)
Lemma near_rnd e z x v m : bfin z -> bval z = rnd x -> Rabs (x - v) <= e -> Rabs x <= m -> 0 <= m -> near (e + (m + 1 / 100) * uu) z v.
Proof.
  intros F V E B M. split; [exact F|]. pose proof (rnd_err x) as RE. rewrite <- V in RE. pose proof uu_pos.
  assert (EU : ee <= 1 / 100 * uu). { replace (1 / 100 * uu) with (uu / 100) by field. apply Rle_trans with (bpow radix2 (-60)); [apply bpow_le; lia|]. rewrite uu_val'. cbn. lra. }
  assert (uu * Rabs x <= uu * m) by (apply Rmult_le_compat_l; lra).
  apply Rabs_le_inv in RE. apply Rabs_le_inv in E. apply Rabs_le. lra.
Qed.
Lemma near_add e f m x y v w : near e x v -> near f y w -> Rabs (v + w) + e + f <= m -> m <= 1000 ->
  near (e + f + (m + 1 / 100) * uu) (b_add x y) (v + w).
Proof.
  intros [Fx Ex] [Fy Ey] B M. pose proof (Rabs_pos (v + w)) as P.
  assert (E : Rabs (bval x + bval y - (v + w)) <= e + f) by (apply Rabs_le_inv in Ex; apply Rabs_le_inv in Ey; apply Rabs_le; lra).
  assert (S : Rabs (bval x + bval y) <= m). { replace (bval x + bval y) with ((bval x + bval y - (v + w)) + (v + w)) by ring. eapply Rle_trans; [apply Rabs_triang|]. lra. }
  pose proof (Rabs_le_inv _ _ S) as SB. destruct (add_range x y Fx Fy) as [F V]; [apply rg_16; lra|].
  eapply near_rnd; [exact F | exact V | exact E | exact S |]. pose proof (Rabs_pos (bval x + bval y)). lra.
Qed.
Lemma near_sub e f m x y v w : near e x v -> near f y w -> Rabs (v - w) + e + f <= m -> m <= 1000 ->
  near (e + f + (m + 1 / 100) * uu) (b_sub x y) (v - w).
Proof.
  intros [Fx Ex] [Fy Ey] B M. pose proof (Rabs_pos (v - w)) as P.
  assert (E : Rabs (bval x - bval y - (v - w)) <= e + f) by (apply Rabs_le_inv in Ex; apply Rabs_le_inv in Ey; apply Rabs_le; lra).
  assert (S : Rabs (bval x - bval y) <= m). { replace (bval x - bval y) with ((bval x - bval y - (v - w)) + (v - w)) by ring. eapply Rle_trans; [apply Rabs_triang|]. lra. }
  pose proof (Rabs_le_inv _ _ S) as SB. destruct (sub_range x y Fx Fy) as [F V]; [apply rg_16; lra|].
  eapply near_rnd; [exact F | exact V | exact E | exact S |]. pose proof (Rabs_pos (bval x - bval y)). lra.
Qed.
Lemma near_opp e x v : near e x v -> near e (Bopp x) (- v).
Proof. intros [F E]. split; [unfold bfin; rewrite is_finite_Bopp; exact F|]. unfold bval. rewrite B2R_Bopp. fold (bval x). apply Rabs_le_inv in E. apply Rabs_le. lra. Qed.
(** the error of a product before rounding *)
Lemma prod_err e f x y v w : Rabs (x - v) <= e -> Rabs (y - w) <= f -> Rabs (x * y - v * w) <= e * Rabs w + f * Rabs v + e * f.
Proof.
  intros Ex Ey. replace (x * y - v * w) with ((x - v) * w + (y - w) * v + (x - v) * (y - w)) by ring.
  eapply Rle_trans; [apply Rabs_triang|]. apply Rplus_le_compat; [eapply Rle_trans; [apply Rabs_triang|]; apply Rplus_le_compat|];
    rewrite Rabs_mult; apply Rmult_le_compat; try apply Rabs_pos; try assumption; apply Rle_refl.
Qed.
Lemma near_mul e f m x y v w : near e x v -> near f y w -> Rabs (v * w) + (e * Rabs w + f * Rabs v + e * f) <= m -> m <= 1000 ->
  near (e * Rabs w + f * Rabs v + e * f + (m + 1 / 100) * uu) (b_mul x y) (v * w).
Proof.
  intros [Fx Ex] [Fy Ey] B M. pose proof (prod_err _ _ _ _ _ _ Ex Ey) as E.
  assert (S : Rabs (bval x * bval y) <= m). { replace (bval x * bval y) with ((bval x * bval y - v * w) + v * w) by ring. eapply Rle_trans; [apply Rabs_triang|]. lra. }
  pose proof (Rabs_le_inv _ _ S) as SB. destruct (mul_range x y Fx Fy) as [F V]; [apply rg_16; lra|].
  eapply near_rnd; [exact F | exact V | exact E | exact S |]. pose proof (Rabs_pos (bval x * bval y)). lra.
Qed.

Lemma ee_uu : 100 * ee <= uu.
Proof. apply Rle_trans with (100 * bpow radix2 (-60)); [apply Rmult_le_compat_l; [lra | apply bpow_le; lia]|]. rewrite uu_val'. cbn. lra. Qed.
Lemma upto_near e x v m : near e x v -> Rabs v <= m -> m + e <= 1000 -> upto 400 x.
Proof.
  intros N B M. split; [apply N|]. eapply Rle_trans; [eapply near_size; [exact N | exact B]|]. eapply Rle_trans; [exact M|].
  apply Rle_trans with (bpow radix2 10); [cbn; lra | apply bpow_le; lia].
Qed.
(** dot products of three and four terms: D is the error of the factors *)
Lemma near_dot3 dot e f D m a b c x y z a' b' c' x' y' z' : In dot b_dots -> 0 <= e <= 10 -> 0 <= f <= 10 ->
  near e a a' -> near e b b' -> near e c c' -> near f x x' -> near f y y' -> near f z z' ->
  Rabs a' <= 10 -> Rabs b' <= 10 -> Rabs c' <= 10 -> Rabs x' <= 10 -> Rabs y' <= 10 -> Rabs z' <= 10 ->
  e * (Rabs x' + Rabs y' + Rabs z') + f * (Rabs a' + Rabs b' + Rabs c') + 3 * (e * f) <= D ->
  Rabs (a' * x') + Rabs (b' * y') + Rabs (c' * z') + D <= m ->
  near (D + (7 * m + 1) * uu) (dot [a; b; c] [x; y; z]) (a' * x' + b' * y' + c' * z').
Proof.
  intros HD He Hf Na Nb Nc Nx Ny Nz Ba Bb Bc Bx By Bz HDm Hm.
  assert (F : bfin (dot [a; b; c] [x; y; z])) by (apply dot3_fin; [exact HD|..]; (eapply (upto_near e); [eassumption | eassumption | lra]) || (eapply (upto_near f); [eassumption | eassumption | lra])).
  split; [exact F|]. destruct (dot_ok dot HD a b c x y z F) as [_ E]. pose proof ee_uu as EU. pose proof uu_pos as U.
  destruct Na as [_ Na], Nb as [_ Nb], Nc as [_ Nc], Nx as [_ Nx], Ny as [_ Ny], Nz as [_ Nz].
  pose proof (prod_err _ _ _ _ _ _ Na Nx) as P1. pose proof (prod_err _ _ _ _ _ _ Nb Ny) as P2. pose proof (prod_err _ _ _ _ _ _ Nc Nz) as P3.
  set (p1 := bval a * bval x) in *. set (p2 := bval b * bval y) in *. set (p3 := bval c * bval z) in *.
  assert (T : forall p v d, Rabs (p - v) <= d -> Rabs p <= Rabs v + d).
  { intros p v d H. replace p with ((p - v) + v) by ring. eapply Rle_trans; [apply Rabs_triang|]. lra. }
  pose proof (T _ _ _ P1) as S1. pose proof (T _ _ _ P2) as S2. pose proof (T _ _ _ P3) as S3.
  assert (SM : Rabs p1 + Rabs p2 + Rabs p3 <= m) by lra.
  assert (SE : 7 * uu * (Rabs p1 + Rabs p2 + Rabs p3) <= 7 * uu * m) by (apply Rmult_le_compat_l; lra).
  apply Rabs_le_inv in E. apply Rabs_le_inv in P1. apply Rabs_le_inv in P2. apply Rabs_le_inv in P3. apply Rabs_le. lra.
Qed.
Lemma near_dot4 dot e f D m a b c d x y z w a' b' c' d' x' y' z' w' : In dot b_dots -> 0 <= e <= 10 -> 0 <= f <= 10 ->
  near e a a' -> near e b b' -> near e c c' -> near e d d' -> near f x x' -> near f y y' -> near f z z' -> near f w w' ->
  Rabs a' <= 10 -> Rabs b' <= 10 -> Rabs c' <= 10 -> Rabs d' <= 10 -> Rabs x' <= 10 -> Rabs y' <= 10 -> Rabs z' <= 10 -> Rabs w' <= 10 ->
  e * (Rabs x' + Rabs y' + Rabs z' + Rabs w') + f * (Rabs a' + Rabs b' + Rabs c' + Rabs d') + 4 * (e * f) <= D ->
  Rabs (a' * x') + Rabs (b' * y') + Rabs (c' * z') + Rabs (d' * w') + D <= m ->
  near (D + (9 * m + 1) * uu) (dot [a; b; c; d] [x; y; z; w]) (a' * x' + b' * y' + c' * z' + d' * w').
Proof.
  intros HD He Hf Na Nb Nc Nd Nx Ny Nz Nw Ba Bb Bc Bd Bx By Bz Bw HDm Hm.
  assert (F : bfin (dot [a; b; c; d] [x; y; z; w])).
  { apply dot4_fin; [exact HD|]. repeat apply Forall_cons; try apply Forall_nil; (eapply (upto_near e); [eassumption | eassumption | lra]) || (eapply (upto_near f); [eassumption | eassumption | lra]). }
  split; [exact F|]. destruct (dot4_ok dot HD a b c d x y z w F) as [_ E]. unfold dot4, abs4 in E. pose proof ee_uu as EU. pose proof uu_pos as U.
  destruct Na as [_ Na], Nb as [_ Nb], Nc as [_ Nc], Nd as [_ Nd], Nx as [_ Nx], Ny as [_ Ny], Nz as [_ Nz], Nw as [_ Nw].
  pose proof (prod_err _ _ _ _ _ _ Na Nx) as P1. pose proof (prod_err _ _ _ _ _ _ Nb Ny) as P2. pose proof (prod_err _ _ _ _ _ _ Nc Nz) as P3. pose proof (prod_err _ _ _ _ _ _ Nd Nw) as P4.
  set (p1 := bval a * bval x) in *. set (p2 := bval b * bval y) in *. set (p3 := bval c * bval z) in *. set (p4 := bval d * bval w) in *.
  assert (T : forall p v d, Rabs (p - v) <= d -> Rabs p <= Rabs v + d).
  { intros p v dd H. replace p with ((p - v) + v) by ring. eapply Rle_trans; [apply Rabs_triang|]. lra. }
  pose proof (T _ _ _ P1) as S1. pose proof (T _ _ _ P2) as S2. pose proof (T _ _ _ P3) as S3. pose proof (T _ _ _ P4) as S4.
  assert (SM : Rabs p1 + Rabs p2 + Rabs p3 + Rabs p4 <= m) by lra.
  assert (SE : 9 * uu * (Rabs p1 + Rabs p2 + Rabs p3 + Rabs p4) <= 9 * uu * m) by (apply Rmult_le_compat_l; lra).
  apply Rabs_le_inv in E. apply Rabs_le_inv in P1. apply Rabs_le_inv in P2. apply Rabs_le_inv in P3. apply Rabs_le_inv in P4. apply Rabs_le. lra.
Qed.
