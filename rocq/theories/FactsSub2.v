(** Error bounds for subproblem2 in binary64. *)
From Coq Require Import Reals ZArith List Bool Lra Lia Psatz.
From Flocq Require Import Core.Core IEEE754.BinarySingleNaN.
From Verif Require Import LinAlg RealAux Py FactsReal FactsLinAlg ModelRot SpecRot FactsRot FactsNorm SpecSub ModelSub FactsSub ModelFloat ModelFloat10 SpecRound FactsB64 FactsExact FactsTrack SpecArc FactsAngle PropPi PropAngle.
From Verif Require FactsTaylor PropNorm PropElbow PropSub4.
Import ListNotations.
Open Scope R_scope.

Lemma dot_pad dot a b c d : In dot b_dots -> bfin (dot [a; b; b_zero] [c; d; b_zero]) -> bfin (dot [a; b] [c; d]) /\ bval (dot [a; b] [c; d]) = bval (dot [a; b; b_zero] [c; d; b_zero]).
Proof.
  assert (S : forall l s, sum_seq (l ++ [(b_zero, b_zero)]) = s -> bfin s -> bfin (sum_seq l) /\ bval (sum_seq l) = bval s).
  { intros l s <- F. unfold sum_seq in *. rewrite fold_left_app in *. cbn [fold_left fst snd] in *. change (b_mul b_zero b_zero) with b_zero in *.
    destruct (add_fin _ _ F) as [F1 _]. split; [exact F1|]. symmetry. apply PropSub4.add_z, F1. }
  assert (SF : forall l s, sum_fma (l ++ [(b_zero, b_zero)]) = s -> bfin s -> bfin (sum_fma l) /\ bval (sum_fma l) = bval s).
  { intros l s <- F. unfold sum_fma in *. rewrite fold_left_app in *. cbn [fold_left fst snd] in *.
    destruct (fma_fin _ _ _ F) as (_ & _ & F1). split; [exact F1|]. symmetry.
    set (x := fold_left _ l b_zero) in *. pose proof (fma_val _ _ _ F) as V. rewrite V. assert (Z : bval b_zero = 0) by reflexivity. rewrite Z, Rmult_0_l, Rplus_0_l. apply rnd_exact, generic_format_B2R. }
  intros HD. repeat (destruct HD as [<- | HD]); [| | | | | | destruct HD]; cbn [combine]; intros F.
  - apply (S [(a, c); (b, d)]); [reflexivity|exact F].
  - apply (SF [(a, c); (b, d)]); [reflexivity|exact F].
  - split; [exact F|reflexivity].
  - split; [exact F|reflexivity].
  - apply (S [(a, c); (b, d)]); [reflexivity|exact F].
  - apply (S [(a, c); (b, d)]); [reflexivity|exact F].
Qed.
Lemma cbs c : 0 <= c <= 4000000 -> cb c. Proof. unfold cb. lra. Qed.
Lemma tr_up c m m' x v : 0 <= c -> m <= m' -> tr c m x v -> tr c m' x v.
Proof. intros C H T. pose proof T as (_ & _ & B). replace c with (c * 1) by ring. apply (tr_mag c m 1 m'); [exact C|lra|lra|exact T]. Qed.
Lemma zero_tr c m : 0 <= c -> 0 <= m -> tr c m b_zero 0.
Proof. intros C M. split; [reflexivity|]. assert (bval b_zero = 0) as -> by reflexivity. rewrite Rminus_0_r, Rabs_R0. pose proof uu_pos. split; [|lra]. apply Rmult_le_pos; [exact C|apply Rmult_le_pos; lra]. Qed.
Lemma norm_2 x y m : 0 <= m -> x * x + y * y <= m * m -> norm (V3 x y 0) <= m.
Proof. intros M H. unfold norm, norm2, LinAlg.dot. cbn [vx vy vz]. rewrite <- (sqrt_square m M). apply sqrt_le_1_alt. lra. Qed.
Lemma tr_dot2 dot c c' m m' a b x y a' b' x' y' : In dot b_dots -> 0 <= c <= 1000 -> 0 <= c' <= 1000 -> rg 390 m -> rg 390 m' ->
  tr c m a a' -> tr c m b b' -> tr c' m' x x' -> tr c' m' y y' -> a' * a' + b' * b' <= m * m -> x' * x' + y' * y' <= m' * m' ->
  tr (3 * (1001 / 1000 * (c + c') + 8)) (m * m') (dot [a; b] [x; y]) (a' * x' + b' * y').
Proof.
  intros HD C C' R1 R2 A B X Y N N'. pose proof (rg_pos _ _ R1). pose proof (rg_pos _ _ R2).
  assert (V : vtr c m [a; b; b_zero] (V3 a' b' 0)) by (apply vtr_entries; cbn [vx vy vz]; [exact A|exact B|apply zero_tr; lra|apply norm_2; [lra|exact N]]).
  assert (V' : vtr c' m' [x; y; b_zero] (V3 x' y' 0)) by (apply vtr_entries; cbn [vx vy vz]; [exact X|exact Y|apply zero_tr; lra|apply norm_2; [lra|exact N']]).
  pose proof (vtr_dot dot c c' m m' _ _ _ _ HD ltac:(apply cbs; lra) ltac:(apply cbs; lra) ltac:(apply cbs; lra) R1 R2 V V') as (F & E & BB).
  destruct (dot_pad dot a b x y HD F) as [F2 V2]. unfold LinAlg.dot in E, BB. cbn [vx vy vz] in E, BB. rewrite Rmult_0_l, Rplus_0_r in E, BB. split; [exact F2|]. rewrite V2. split; [exact E|exact BB].
Qed.
Lemma sub_add (a b : vec3) : vadd (vsub a b) b = a. Proof. la_ring. Qed.
Lemma dot_split (c d v h : vec3) : LinAlg.dot c h - LinAlg.dot v h = LinAlg.dot (vsub c d) h + (LinAlg.dot d h - LinAlg.dot v h). Proof. la_ring. Qed.
Lemma dot_diff (c d : vec3) : LinAlg.dot c c - LinAlg.dot d d = LinAlg.dot (vsub c d) (vadd c d). Proof. la_ring. Qed.
Lemma rot_split h t v c n n' : unit3 h -> n <> 0 -> n' <> 0 -> vsub (rotate h t v) c = vadd (vadd (vscale n (vsub (rotate h t (vscale (/ n) (perp h v))) (vscale (/ n') (perp h c)))) (vscale (n - n') (vscale (/ n') (perp h c)))) (vscale (LinAlg.dot v h - LinAlg.dot c h) h).
Proof.
  intros U N N'.
  assert (E1 : vscale n (vsub (rotate h t (vscale (/ n) (perp h v))) (vscale (/ n') (perp h c))) = vsub (rotate h t (perp h v)) (vscale (n * / n') (perp h c))).
  { assert (rotate h t (vscale (/ n) (perp h v)) = vscale (/ n) (rotate h t (perp h v))) as -> by (unfold rotate; la_ring).
    set (x := rotate h t (perp h v)). set (y := perp h c). assert (E : n * / n = 1) by (field; exact N). destruct x as [x1 x2 x3], y as [y1 y2 y3]. unfold vsub, vscale. cbn [vx vy vz].
    f_equal; rewrite Rmult_minus_distr_l, <- !Rmult_assoc, E, Rmult_1_l; reflexivity. }
  rewrite E1.
  assert (E2 : vscale (n - n') (vscale (/ n') (perp h c)) = vsub (vscale (n * / n') (perp h c)) (perp h c)).
  { set (y := perp h c). assert (E : n' * / n' = 1) by (field; exact N'). destruct y as [y1 y2 y3]. unfold vsub, vscale. cbn [vx vy vz].
    f_equal; rewrite <- Rmult_assoc, Rmult_minus_distr_r, E, Rmult_minus_distr_r, Rmult_1_l; reflexivity. }
  rewrite E2.
  assert (E3 : rotate h t v = vadd (rotate h t (perp h v)) (vscale (LinAlg.dot v h) h)).
  { rewrite <- !(rot_rotate h t _ U). rewrite (perp_rot h t v U). set (x := mvec _ _). destruct x as [x1 x2 x3], h as [a b d]. unfold vadd, vscale. cbn [vx vy vz]. f_equal; ring. }
  rewrite E3. set (x := rotate h t (perp h v)). set (y := vscale (n * / n') (perp h c)). rewrite (perp_decomp h c) at 1. set (z := perp h c). set (p := LinAlg.dot v h). set (q := LinAlg.dot c h).
  destruct x as [x1 x2 x3], y as [y1 y2 y3], z as [z1 z2 z3], h as [a b d]. unfold vadd, vsub, vscale. cbn [vx vy vz]. f_equal; ring.
Qed.
Lemma rot_0 h v : rotate h 0 v = v. Proof. unfold rotate. rewrite cos_0, sin_0. la_ring. Qed.
Lemma basis_split (a b c : vec3) : vscale (LinAlg.dot a a * LinAlg.dot b b - LinAlg.dot a b * LinAlg.dot a b) c =
  vadd (vadd (vscale (LinAlg.dot c a * LinAlg.dot b b - LinAlg.dot c b * LinAlg.dot a b) a) (vscale (LinAlg.dot c b * LinAlg.dot a a - LinAlg.dot c a * LinAlg.dot a b) b)) (vscale (LinAlg.dot c (cross a b)) (cross a b)).
Proof. la_ring. Qed.
Lemma gap_solution (p q k1 k2 c : vec3) : unit3 k1 -> unit3 k2 -> LinAlg.dot c c = LinAlg.dot p p -> LinAlg.dot c k2 = LinAlg.dot p k2 -> LinAlg.dot c k1 = LinAlg.dot q k1 ->
  LinAlg.dot k1 k2 * LinAlg.dot k1 k2 < 1 -> cone_gap p q k1 k2 * (1 - LinAlg.dot k1 k2 * LinAlg.dot k1 k2) = LinAlg.dot c (cross k1 k2) * LinAlg.dot c (cross k1 k2).
Proof.
  intros U1 U2 E E2 E1 LT. unfold cone_gap. rewrite Rmult_minus_distr_r.
  match goal with |- context [?a / ?b * ?b] => replace (a / b * b) with a by (field; lra) end. rewrite <- E, <- E1, <- E2. pose proof (basis_split k1 k2 c) as B. unfold unit3 in U1, U2. rewrite U1, U2 in B.
  apply (f_equal (LinAlg.dot c)) in B. rewrite !dot_vadd_r, !dot_vscale_r in B. lra.
Qed.

Section Sub2.
Context (L : libm) (bdot : list b64 -> list b64 -> b64) (HD : In bdot b_dots).
Notation A := (b64_arith L bdot).
Context (p q k1 k2 : list b64) (p0 q0 h1 h2 : vec3) (M G : R).
Context (HM : rg 150 M) (U1 : unit3 h1) (U2 : unit3 h2) (Hp : vtr 0 M p p0) (Hq : vtr 0 M q q0) (H1 : vtr 8 1 k1 h1) (H2 : vtr 8 1 k2 h2).
Notation K := (LinAlg.dot h1 h2).
Notation pe := (LinAlg.dot p0 h2).
Notation qe := (LinAlg.dot q0 h1).
Notation uM := (uu * M).
Context (G1 : 1 <= G) (HG : 1 <= G * (1 - K * K)) (HGB : G * G <= bpow radix2 34).
Notation b_one := (b_lit 1 1).

Definition t_k : b64 := bdot k1 k2.
Definition t_p : b64 := bdot p k2.
Definition t_q : b64 := bdot q k1.
Definition t_s : b64 := b_mul t_k t_k.
Definition t_den : b64 := b_sub t_s b_one.
Definition t_n0 : b64 := bdot [t_k; Bopp b_one] [t_p; t_q].
Definition t_n1 : b64 := bdot [Bopp b_one; t_k] [t_p; t_q].
Definition t_a0 : b64 := b_div t_n0 t_den.
Definition t_a1 : b64 := b_div t_n1 t_den.
Definition t_b : b64 := b_sub (b_sub (bdot p p) (bdot [t_a0; t_a1] [t_a0; t_a1])) (b_mul (b_mul (b_mul (b_lit 2 1) t_a0) t_a1) t_k).

Lemma M0 : 0 < M. Proof. apply (rg_pos 150). exact HM. Qed.
Lemma M390 : rg 390 M. Proof. apply (rg_weak 150); [lia|exact HM]. Qed.
Lemma one390 : rg 390 1. Proof. apply rg_1. lia. Qed.
Lemma uM0 : 0 < uM. Proof. apply Rmult_lt_0_compat; [apply uu_pos|exact M0]. Qed.
Lemma GB : G <= 131072. Proof. apply Rnot_lt_le. intros C. assert (131072 * 131072 < G * G) by (apply Rmult_le_0_lt_compat; lra). cbn in HGB. lra. Qed.
Lemma K1 : Rabs K <= 1.
Proof. eapply Rle_trans; [apply abs_dot_le|]. rewrite (norm_unit _ U1), (norm_unit _ U2). lra. Qed.
Lemma KK : K * K <= 1. Proof. pose proof K1 as B. apply Rabs_le_inv in B. nra. Qed.
Lemma pe_le : Rabs pe <= M.
Proof. eapply Rle_trans; [apply abs_dot_le|]. rewrite (norm_unit _ U2). destruct Hp as (_ & _ & _ & _ & _ & _ & _ & W). lra. Qed.
Lemma qe_le : Rabs qe <= M.
Proof. eapply Rle_trans; [apply abs_dot_le|]. rewrite (norm_unit _ U1). destruct Hq as (_ & _ & _ & _ & _ & _ & _ & W). lra. Qed.
Lemma k_ok : tr 73 1 t_k K.
Proof.
  pose proof (vtr_dot bdot 8 8 1 1 _ _ _ _ HD ltac:(apply cbs; lra) ltac:(apply cbs; lra) ltac:(apply cbs; lra) one390 one390 H1 H2) as T. rewrite Rmult_1_l in T. apply (tr_weak _ 73) in T; [exact T|lra|lra].
Qed.
Lemma p_ok : tr 49 M t_p pe.
Proof. pose proof (vtr_dot bdot 0 8 M 1 _ _ _ _ HD ltac:(apply cbs; lra) ltac:(apply cbs; lra) ltac:(apply cbs; lra) M390 one390 Hp H2) as T. rewrite Rmult_1_r in T. pose proof M0. apply (tr_weak _ 49) in T; [exact T|lra|lra]. Qed.
Lemma q_ok : tr 49 M t_q qe.
Proof. pose proof (vtr_dot bdot 0 8 M 1 _ _ _ _ HD ltac:(apply cbs; lra) ltac:(apply cbs; lra) ltac:(apply cbs; lra) M390 one390 Hq H1) as T. rewrite Rmult_1_r in T. pose proof M0. apply (tr_weak _ 49) in T; [exact T|lra|lra]. Qed.
Lemma one_tr c : 0 <= c -> tr c 1 b_one 1.
Proof. intros C. split; [reflexivity|]. rewrite (proj2 PropElbow.one_val), Rminus_diag_eq, Rabs_R0, Rabs_R1 by reflexivity. pose proof uu_pos. split; [apply Rmult_le_pos; lra|lra]. Qed.
Lemma s_ok : tr 149 1 t_s (K * K).
Proof.
  assert (R1 : rg 900 (1 * 1)) by (rewrite Rmult_1_l; apply rg_1; lia).
  pose proof (tr_mul 73 73 1 1 _ _ _ _ ltac:(apply cbs; lra) ltac:(apply cbs; lra) ltac:(apply cbs; lra) R1 k_ok k_ok) as T. rewrite Rmult_1_l in T. apply (tr_weak _ 149) in T; [exact T|lra|lra].
Qed.
Lemma den_ok : bfin t_den /\ Rabs (bval t_den - (K * K - 1)) <= 160 * uu.
Proof.
  assert (R2 : rg 900 (2 * 1)) by (rewrite Rmult_1_r; split; [apply Rle_trans with (bpow radix2 0); [apply bpow_le; lia|cbn; lra]|change 2 with (bpow radix2 1); apply bpow_le; lia]).
  destruct (tr_sub 149 0 1 _ _ _ _ ltac:(apply cbs; lra) ltac:(apply cbs; lra) R2 s_ok (one_tr 0 (Rle_refl 0))) as (F & E & _). split; [exact F|]. pose proof uu_pos. fold t_den in E. lra.
Qed.
Notation D := (1 - K * K).
Lemma D_pos : 0 < D /\ / G <= D /\ 160 * uu <= 1 / 1000000 * D.
Proof.
  pose proof GB as B. assert (IG : / G * G = 1) by (apply Rinv_l; lra). pose proof (Rinv_0_lt_compat G ltac:(lra)) as IP.
  assert (DL : / G <= D) by (apply (Rmult_le_reg_r G); [lra|]; rewrite IG; lra).
  assert (IB : 1 / 131072 <= / G) by (apply (Rmult_le_reg_r G); [lra|]; rewrite IG; lra).
  split; [lra|]. split; [exact DL|]. rewrite uu_val'. lra.
Qed.
Lemma n_gen x y x' y' : tr 73 1 x x' -> tr 73 1 y y' -> bfin (bdot [x; y] [t_p; t_q]) /\ Rabs (bval (bdot [x; y] [t_p; t_q]) - (x' * pe + y' * qe)) <= 880 * uM.
Proof.
  intros X Y. pose proof M0 as MP. pose proof uu_pos as U.
  assert (R1 : rg 390 (3 / 2)) by (split; [apply Rle_trans with (bpow radix2 0); [apply bpow_le; lia|cbn; lra]|apply Rle_trans with (bpow radix2 1); [cbn; lra|apply bpow_le; lia]]).
  assert (R2 : rg 390 (3 / 2 * M)) by (apply (rg_weak 153); [lia|]; apply (rg_scale 150); [exact HM|lra]).
  assert (BX : x' * x' <= 1) by (destruct X as (_ & _ & B); apply Rabs_le_inv in B; nra). assert (BY : y' * y' <= 1) by (destruct Y as (_ & _ & B); apply Rabs_le_inv in B; nra).
  assert (BP : pe * pe <= M * M) by (pose proof pe_le as B; apply Rabs_le_inv in B; nra). assert (BQ : qe * qe <= M * M) by (pose proof qe_le as B; apply Rabs_le_inv in B; nra).
  apply (tr_up _ _ (3 / 2)) in X; [|lra|lra]. apply (tr_up _ _ (3 / 2)) in Y; [|lra|lra].
  pose proof p_ok as P. pose proof q_ok as Q. apply (tr_up _ _ (3 / 2 * M)) in P; [|lra|lra]. apply (tr_up _ _ (3 / 2 * M)) in Q; [|lra|lra].
  destruct (tr_dot2 bdot 73 49 (3 / 2) (3 / 2 * M) _ _ _ _ _ _ _ _ HD ltac:(lra) ltac:(lra) R1 R2 X Y P Q) as (F & E & _); [lra|replace (3 / 2 * M * (3 / 2 * M)) with (9 / 4 * (M * M)) by field; assert (0 < M * M) by (apply Rmult_lt_0_compat; lra); lra|].
  split; [exact F|]. pose proof uM0. lra.
Qed.
Lemma n0_ok : bfin t_n0 /\ Rabs (bval t_n0 - (K * pe - qe)) <= 880 * uM.
Proof. destruct (n_gen t_k (Bopp b_one) K (-1) k_ok (tr_opp _ _ _ _ (one_tr 73 ltac:(lra)))) as [F E]. split; [exact F|]. replace (K * pe - qe) with (K * pe + -1 * qe) by ring. exact E. Qed.
Lemma n1_ok : bfin t_n1 /\ Rabs (bval t_n1 - (- pe + K * qe)) <= 880 * uM.
Proof. destruct (n_gen (Bopp b_one) t_k (-1) K (tr_opp _ _ _ _ (one_tr 73 ltac:(lra))) k_ok) as [F E]. split; [exact F|]. replace (- pe + K * qe) with (-1 * pe + K * qe) by ring. exact E. Qed.
(** the quotients, compared with the exact equations *)
Lemma a_gen n v : bfin n -> Rabs v <= 2 * M -> Rabs (bval n - v) <= 880 * uM ->
  bfin (b_div n t_den) /\ Rabs (bval (b_div n t_den)) <= 21 / 10 * (M * G) /\ Rabs (- D * bval (b_div n t_den) - v) <= 160 * uu * Rabs (bval (b_div n t_den)) + 890 * uM.
Proof.
  intros Fn Bv En. destruct den_ok as [Fd Ed]. destruct D_pos as (DP & DG & DU). pose proof M0 as MP. pose proof uu_pos as U. pose proof uu_small as US. pose proof uM0 as UM. pose proof KK as K2. pose proof GB as GB'.
  assert (UM1 : uM <= 1 / 1000000000000 * M) by (apply Rmult_le_compat_r; [lra|]; rewrite uu_val'; lra).
  set (d := bval t_den) in *. assert (DB : 999 / 1000 * D <= - d <= 1001 / 1000) by (apply Rabs_le_inv in Ed; pose proof (Rle_0_sqr K) as Q; unfold Rsqr in Q; lra).
  assert (NB : Rabs (bval n) <= 201 / 100 * M). { replace (bval n) with (v + (bval n - v)) by ring. eapply Rle_trans; [apply Rabs_triang|]. lra. }
  assert (DN : d <> 0) by lra.
  assert (QB : Rabs (bval n / d) <= 202 / 100 * (M * G)).
  { unfold Rdiv. rewrite Rabs_mult, Rabs_inv. assert (AD : 999 / 1000 * D <= Rabs d) by (rewrite Rabs_left by lra; lra).
    apply (Rmult_le_reg_r (Rabs d)); [apply Rabs_pos_lt; exact DN|]. rewrite Rmult_assoc, Rinv_l, Rmult_1_r by (apply Rabs_no_R0; exact DN).
    apply Rle_trans with (202 / 100 * (M * G) * (999 / 1000 * D)); [|apply Rmult_le_compat_l; [apply Rmult_le_pos; [lra|apply Rmult_le_pos; lra]|exact AD]].
    replace (202 / 100 * (M * G) * (999 / 1000 * D)) with (202 / 100 * (999 / 1000) * M * (G * D)) by field. assert (M * 1 <= M * (G * D)) by (apply Rmult_le_compat_l; lra). lra. }
  assert (MG : 0 < M * G) by (apply Rmult_lt_0_compat; lra).
  assert (RGM : rg 180 (M * G)). { replace 180%Z with (150 + 30)%Z by lia. apply rg_mul; [exact HM|]. split; [apply Rle_trans with (bpow radix2 0); [apply bpow_le; lia|cbn; lra]|apply Rle_trans with (bpow radix2 17); [cbn; lra|apply bpow_le; lia]]. }
  destruct (div_range n t_den Fn DN) as [F V]. { apply (PropSub4.rnd_room _ 200); [lia|]. eapply Rle_trans; [exact QB|]. destruct RGM as [_ R2]. apply Rle_trans with (bpow radix2 3 * bpow radix2 180); [change (bpow radix2 3) with 8; lra|]. rewrite <- bpow_plus. apply bpow_le. lia. }
  pose proof (rnd_err (bval n / bval t_den)) as E. rewrite <- V in E. fold d in E. set (a := bval (b_div n t_den)) in *.
  pose proof (ee_rg 180 (M * G) ltac:(lia) RGM) as EE. assert (EM : ee <= 1 / 1000 * uM) by (apply (ee_rg 150); [lia|exact HM]).
  assert (UQ : uu * Rabs (bval n / d) <= uu * (202 / 100 * (M * G))) by (apply Rmult_le_compat_l; lra). assert (UMG : uu * (M * G) <= 1 / 1000000 * (M * G)) by (apply Rmult_le_compat_r; lra).
  split; [exact F|]. split.
  - replace a with ((a - bval n / d) + bval n / d) by ring. eapply Rle_trans; [apply Rabs_triang|]. lra.
  - assert (E2 : Rabs (d * a - bval n) <= 3 * uM).
    { replace (d * a - bval n) with (d * (a - bval n / d)) by (field; exact DN). rewrite Rabs_mult. apply Rle_trans with (Rabs d * (uu * Rabs (bval n / d) + ee)); [apply Rmult_le_compat_l; [apply Rabs_pos|exact E]|].
      replace (Rabs d * (uu * Rabs (bval n / d) + ee)) with (uu * (Rabs d * Rabs (bval n / d)) + Rabs d * ee) by ring. rewrite <- Rabs_mult. replace (d * (bval n / d)) with (bval n) by (field; exact DN).
      assert (uu * Rabs (bval n) <= uu * (201 / 100 * M)) by (apply Rmult_le_compat_l; lra). assert (Rabs d * ee <= 1001 / 1000 * ee) by (apply Rmult_le_compat_r; [apply Rlt_le, ee_pos|rewrite Rabs_left by lra; lra]). lra. }
    replace (- D * a - v) with ((d * a - bval n) + (bval n - v) + - (d - (K * K - 1)) * a) by ring.
    eapply Rle_trans; [apply Rabs_triang|]. eapply Rle_trans; [apply Rplus_le_compat_r, Rabs_triang|]. rewrite Rabs_mult, Rabs_Ropp.
    assert (Rabs (d - (K * K - 1)) * Rabs a <= 160 * uu * Rabs a) by (apply Rmult_le_compat_r; [apply Rabs_pos|exact Ed]). lra.
Qed.
Notation a0 := (bval t_a0).
Notation a1 := (bval t_a1).
Lemma n_le : Rabs (K * pe - qe) <= 2 * M /\ Rabs (- pe + K * qe) <= 2 * M.
Proof.
  pose proof K1 as B. pose proof pe_le as P. pose proof qe_le as Q. pose proof M0 as MP. pose proof (Rabs_pos K) as KP.
  assert (X : forall y, Rabs y <= M -> Rabs (K * y) <= M) by (intros y Y; rewrite Rabs_mult; pose proof (Rabs_pos y); assert (Rabs K * Rabs y <= 1 * M) by (apply Rmult_le_compat; lra); lra).
  pose proof (X _ P) as XP. pose proof (X _ Q) as XQ. apply Rabs_le_inv in P, Q, XP, XQ. split; apply Rabs_le; lra.
Qed.
Lemma a0_ok : bfin t_a0 /\ Rabs a0 <= 21 / 10 * (M * G) /\ Rabs (- D * a0 - (K * pe - qe)) <= 1226 * (uM * G).
Proof.
  destruct n0_ok as [F E]. destruct (a_gen t_n0 _ F (proj1 n_le) E) as (F1 & B & E1). fold t_a0 in F1, B, E1. split; [exact F1|]. split; [exact B|]. eapply Rle_trans; [exact E1|]. pose proof uu_pos. pose proof uM0.
  assert (160 * uu * Rabs a0 <= 160 * uu * (21 / 10 * (M * G))) by (apply Rmult_le_compat_l; lra). assert (uM * 1 <= uM * G) by (apply Rmult_le_compat_l; lra). lra.
Qed.
Lemma a1_ok : bfin t_a1 /\ Rabs a1 <= 21 / 10 * (M * G) /\ Rabs (- D * a1 - (- pe + K * qe)) <= 1226 * (uM * G).
Proof.
  destruct n1_ok as [F E]. destruct (a_gen t_n1 _ F (proj2 n_le) E) as (F1 & B & E1). fold t_a1 in F1, B, E1. split; [exact F1|]. split; [exact B|]. eapply Rle_trans; [exact E1|]. pose proof uu_pos. pose proof uM0.
  assert (160 * uu * Rabs a1 <= 160 * uu * (21 / 10 * (M * G))) by (apply Rmult_le_compat_l; lra). assert (uM * 1 <= uM * G) by (apply Rmult_le_compat_l; lra). lra.
Qed.
(** the heights along the axes *)
Lemma heights : Rabs (a0 + K * a1 - qe) <= 2452 * (uM * (G * G)) /\ Rabs (K * a0 + a1 - pe) <= 2452 * (uM * (G * G)).
Proof.
  destruct a0_ok as (_ & _ & E0). destruct a1_ok as (_ & _ & E1). destruct D_pos as (DP & _). pose proof K1 as KB. pose proof uM0 as UM. set (e0 := - D * a0 - (K * pe - qe)) in *. set (e1 := - D * a1 - (- pe + K * qe)) in *.
  assert (R1 : Rabs (e0 + K * e1) <= 2452 * (uM * G)). { eapply Rle_trans; [apply Rabs_triang|]. rewrite Rabs_mult. pose proof (Rabs_pos e1). assert (Rabs K * Rabs e1 <= 1 * (1226 * (uM * G))) by (apply Rmult_le_compat; auto using Rabs_pos). lra. }
  assert (R2 : Rabs (K * e0 + e1) <= 2452 * (uM * G)). { eapply Rle_trans; [apply Rabs_triang|]. rewrite Rabs_mult. pose proof (Rabs_pos e0). assert (Rabs K * Rabs e0 <= 1 * (1226 * (uM * G))) by (apply Rmult_le_compat; auto using Rabs_pos). lra. }
  assert (SC : forall x y, - D * x = y -> Rabs y <= 2452 * (uM * G) -> Rabs x <= 2452 * (uM * (G * G))).
  { intros x y E B. rewrite <- E, Rabs_mult, Rabs_Ropp, (Rabs_right D) in B by lra. pose proof (Rabs_pos x) as X0.
    assert (Rabs x * 1 <= Rabs x * (G * D)) by (apply Rmult_le_compat_l; lra). assert (G * (D * Rabs x) <= G * (2452 * (uM * G))) by (apply Rmult_le_compat_l; lra). lra. }
  split; [apply (SC _ (e0 + K * e1)); [unfold e0, e1; ring|exact R1]|apply (SC _ (K * e0 + e1)); [unfold e0, e1; ring|exact R2]].
Qed.
Notation Q := (a0 * a0 + a1 * a1 + 2 * a0 * a1 * K).
Notation W := (4 * (M * G)).
Lemma Wrg : rg 190 W.
Proof. pose proof GB. apply (rg_weak 183); [lia|]. apply (rg_scale 180); [|lra]. replace 180%Z with (150 + 30)%Z by lia. apply rg_mul; [exact HM|]. split; [apply Rle_trans with (bpow radix2 0); [apply bpow_le; lia|cbn; lra]|apply Rle_trans with (bpow radix2 17); [cbn; lra|apply bpow_le; lia]]. Qed.
Lemma b_ok : bfin t_b /\ Rabs (bval t_b - (LinAlg.dot p0 p0 - Q)) <= 300 * (uu * (W * W)).
Proof.
  destruct a0_ok as (F0 & B0 & _). destruct a1_ok as (F1 & B1 & _). pose proof M0 as MP. assert (MG : 0 < M * G) by (apply Rmult_lt_0_compat; lra). pose proof uu_pos as U.
  assert (W390 : rg 390 W) by (apply (rg_weak 190); [lia|exact Wrg]). assert (WW : rg 380 (W * W)) by (exact (rg_mul 190 190 W W Wrg Wrg)). pose proof (rg_pos _ _ WW) as WWP.
  assert (T0 : tr 0 W t_a0 a0) by (apply tr_exact; [exact F0|lra]). assert (T1 : tr 0 W t_a1 a1) by (apply tr_exact; [exact F1|lra]).
  assert (SQ : a0 * a0 + a1 * a1 <= W * W). { apply Rabs_le_inv in B0, B1. assert (a0 * a0 <= 21 / 10 * (M * G) * (21 / 10 * (M * G))) by nra. assert (a1 * a1 <= 21 / 10 * (M * G) * (21 / 10 * (M * G))) by nra. nra. }
  pose proof (tr_dot2 bdot 0 0 W W _ _ _ _ _ _ _ _ HD ltac:(lra) ltac:(lra) W390 W390 T0 T1 T0 T1 SQ SQ) as TA. apply (tr_weak _ 25) in TA; [|lra|lra].
  pose proof (vtr_dot bdot 0 0 M M _ _ _ _ HD ltac:(apply cbs; lra) ltac:(apply cbs; lra) ltac:(apply cbs; lra) M390 M390 Hp Hp) as TP. apply (tr_weak _ 25) in TP; [|lra|apply Rmult_le_pos; lra].
  assert (MW : M * M <= W * W) by (assert (M * 1 <= M * G) by (apply Rmult_le_compat_l; lra); apply Rmult_le_compat; lra). apply (tr_up _ _ (W * W)) in TP; [|lra|exact MW].
  assert (RW2 : rg 900 (2 * (W * W))) by (apply (rg_weak 383); [lia|]; apply (rg_scale 380); [exact WW|lra]).
  pose proof (tr_sub 25 25 (W * W) _ _ _ _ ltac:(apply cbs; lra) ltac:(apply cbs; lra) RW2 TP TA) as TS. apply (tr_weak _ 27) in TS; [|lra|lra].
  assert (T2 : tr 0 2 (b_lit 2 1) 2) by (destruct one_two as [F2 V2]; split; [exact F2|]; rewrite V2; replace (2 - 2) with 0 by ring; rewrite Rabs_R0, (Rabs_right 2) by lra; lra).
  assert (RW1 : rg 900 (2 * W)) by (apply (rg_weak 193); [lia|]; apply (rg_scale 190); [exact Wrg|lra]).
  pose proof (tr_mul 0 0 2 W _ _ _ _ ltac:(apply cbs; lra) ltac:(apply cbs; lra) ltac:(apply cbs; lra) RW1 T2 T0) as TX. apply (tr_weak _ 2) in TX; [|lra|lra].
  assert (RW3 : rg 900 (2 * W * W)) by (replace (2 * W * W) with (2 * (W * W)) by ring; exact RW2).
  pose proof (tr_mul 2 0 (2 * W) W _ _ _ _ ltac:(apply cbs; lra) ltac:(apply cbs; lra) ltac:(apply cbs; lra) RW3 TX T1) as TY. apply (tr_weak _ 5) in TY; [|lra|lra].
  assert (RW4 : rg 900 (2 * W * W * 1)) by (rewrite Rmult_1_r; exact RW3).
  pose proof (tr_mul 5 73 (2 * W * W) 1 _ _ _ _ ltac:(apply cbs; lra) ltac:(apply cbs; lra) ltac:(apply cbs; lra) RW4 TY k_ok) as TZ. apply (tr_weak _ 81) in TZ; [|lra|lra].
  replace (2 * W * W * 1) with (2 * (W * W)) in TZ by ring.
  assert (RW5 : rg 900 (2 * (2 * (W * W)))) by (replace (2 * (2 * (W * W))) with (4 * (W * W)) by ring; apply (rg_weak 383); [lia|]; apply (rg_scale 380); [exact WW|lra]).
  pose proof (tr_sub 27 81 (2 * (W * W)) _ _ _ _ ltac:(apply cbs; lra) ltac:(apply cbs; lra) RW5 TS TZ) as (F & E & _). split; [exact F|].
  replace (LinAlg.dot p0 p0 - Q) with (LinAlg.dot p0 p0 - (a0 * a0 + a1 * a1) - 2 * a0 * a1 * K) by ring. eapply Rle_trans; [exact E|]. assert (0 < uu * (W * W)) by (apply Rmult_lt_0_compat; lra). lra.
Qed.

(** the distance along the common normal *)
Notation nx := (cross h1 h2).
Notation s := (norm nx).
Definition t_x : list b64 := l_cross A k1 k2.
Definition t_nc : b64 := b_sqrt (bdot t_x t_x).
Definition t_g : b64 := b_div (b_sqrt t_b) t_nc.
Lemma x_ok : vtr 42 1 t_x nx.
Proof.
  pose proof (vtr_cross L bdot 8 8 1 1 _ _ _ _ ltac:(lra) ltac:(lra) ltac:(apply cbs; lra) one390 one390 H1 H2) as T. rewrite Rmult_1_l in T. apply (vtr_weak _ 42) in T; [exact T|lra|lra].
Qed.
Lemma s_sq : s * s = D.
Proof. rewrite norm_sq. change (LinAlg.dot nx nx) with (norm2 nx). rewrite lagrange. unfold norm2. unfold unit3 in U1, U2. rewrite U1, U2. ring. Qed.
Lemma s_rng : 0 < s <= 1 /\ D <= s /\ 1 <= G * s.
Proof.
  destruct D_pos as (DP & _). pose proof s_sq as S. pose proof (norm_nonneg nx) as N. pose proof (Rle_0_sqr K) as KS. unfold Rsqr in KS.
  assert (N0 : 0 < s) by (destruct N as [N|N]; [exact N|rewrite <- N in S; lra]).
  assert (N1 : s <= 1) by (apply Rnot_lt_le; intros C; assert (1 * 1 < s * s) by (apply Rmult_le_0_lt_compat; lra); lra).
  assert (DS : D <= s) by (rewrite <- S; assert (s * s <= s * 1) by (apply Rmult_le_compat_l; lra); lra).
  split; [lra|]. split; [exact DS|]. assert (G * D <= G * s) by (apply Rmult_le_compat_l; lra). lra.
Qed.
Lemma nc_ok : bfin t_nc /\ Rabs (bval t_nc - s) <= 100 * uu /\ 999 / 1000 * s <= bval t_nc <= 1001 / 1000.
Proof.
  destruct (tr_norm bdot 42 1 t_x nx HD ltac:(apply cbs; lra) one390 x_ok) as [(F & E & _) _]. destruct s_rng as (S1 & S2 & S3). destruct D_pos as (_ & _ & DU). pose proof uu_pos. fold t_nc in F, E.
  split; [exact F|]. assert (E' : Rabs (bval t_nc - s) <= 100 * uu) by (eapply Rle_trans; [exact E|]; lra). split; [exact E'|]. apply Rabs_le_inv in E'. rewrite uu_val' in *. lra.
Qed.
Lemma Q_nonneg : 0 <= Q.
Proof.
  assert (Q = LinAlg.dot (vadd (vscale a0 h1) (vscale a1 h2)) (vadd (vscale a0 h1) (vscale a1 h2))) as ->.
  { rewrite !dot_vadd_l, !dot_vadd_r, !dot_vscale_l, !dot_vscale_r. unfold unit3 in U1, U2. rewrite U1, U2, (dot_comm h2 h1). ring. }
  apply dot_self_nonneg.
Qed.
Notation MM := (M * M).
Notation e2 := (uu * (M * M) * (G * G)).
Lemma small_e : 0 < e2 <= bpow radix2 (-19) * MM /\ uM * G <= uM * (G * G) /\ uM * (G * G) <= bpow radix2 (-19) * M.
Proof.
  pose proof M0 as MP. pose proof uu_pos as U. pose proof uM0 as UM. assert (MMP : 0 < MM) by (apply Rmult_lt_0_compat; lra). assert (GG : G <= G * G) by (rewrite <- (Rmult_1_l G) at 1; apply Rmult_le_compat_r; lra).
  assert (UG : uu * (G * G) <= bpow radix2 (-19)) by (replace (bpow radix2 (-19)) with (uu * bpow radix2 34) by (unfold uu; rewrite <- bpow_plus; reflexivity); apply Rmult_le_compat_l; lra).
  split; [split|split].
  - apply Rmult_lt_0_compat; [apply Rmult_lt_0_compat; lra|lra].
  - replace e2 with (uu * (G * G) * MM) by ring. apply Rmult_le_compat_r; lra.
  - apply Rmult_le_compat_l; lra.
  - replace (uM * (G * G)) with (uu * (G * G) * M) by ring. apply Rmult_le_compat_r; lra.
Qed.
Lemma b19 : bpow radix2 (-19) = / 524288. Proof. reflexivity. Qed.
Lemma b_up : bval t_b <= 101 / 100 * MM.
Proof.
  destruct b_ok as [_ E]. apply Rabs_le_inv in E. pose proof Q_nonneg as QN. destruct small_e as ((E0 & E1) & _). rewrite b19 in E1. replace (uu * (W * W)) with (16 * e2) in E by ring.
  assert (PP : LinAlg.dot p0 p0 <= MM) by (rewrite <- norm_sq; destruct Hp as (_ & _ & _ & _ & _ & _ & _ & N); pose proof (norm_nonneg p0); apply Rmult_le_compat; lra).
  pose proof M0 as MP. assert (MMP : 0 < MM) by (apply Rmult_lt_0_compat; lra). lra.
Qed.
Lemma ee2 : ee <= 1 / 1000 * uM. Proof. apply (ee_rg 150); [lia|exact HM]. Qed.
Notation gm := (bval t_g).
Lemma g_ok : 0 <= bval t_b -> bfin t_g /\ 0 <= gm <= 11 / 10 * (M * G) /\ Rabs (s * gm - sqrt (bval t_b)) <= 120 * (uM * G) /\ Rabs (s * gm * (s * gm) - bval t_b) <= 260 * e2.
Proof.
  intros BP. destruct b_ok as [FB _]. destruct nc_ok as (FN & EN & NL & NU). destruct s_rng as (S1 & S2 & S3). pose proof b_up as BU. pose proof M0 as MP. pose proof uM0 as UM. pose proof uu_pos as U. pose proof ee2 as EE. pose proof ee_pos as EP. pose proof GB as GB'.
  assert (MMP : 0 < MM) by (apply Rmult_lt_0_compat; lra). assert (MG : 0 < M * G) by (apply Rmult_lt_0_compat; lra). assert (M1 : M <= M * G) by (rewrite <- (Rmult_1_r M) at 1; apply Rmult_le_compat_l; lra).
  assert (UM1 : uM <= 1 / 1000000000000 * M) by (apply Rmult_le_compat_r; [lra|]; rewrite uu_val'; lra).
  assert (UG : uM * 1 <= uM * G) by (apply Rmult_le_compat_l; lra).
  set (be := sqrt (bval t_b)). assert (B0 : 0 <= be) by apply sqrt_pos. assert (BB : be * be = bval t_b) by (apply sqrt_sqrt; exact BP).
  assert (B1 : be <= 1005 / 1000 * M) by (apply Rnot_lt_le; intros C; assert (1005 / 1000 * M * (1005 / 1000 * M) < be * be) by (apply Rmult_le_0_lt_compat; lra); lra).
  destruct (sqrt_range0 t_b FB BP) as [FS VS]. fold be in VS. pose proof (rnd_err be) as ES. rewrite <- VS in ES. rewrite (Rabs_right be) in ES by lra. set (bs := bval (b_sqrt t_b)) in *.
  assert (UB : uu * be <= uu * (1005 / 1000 * M)) by (apply Rmult_le_compat_l; lra).
  assert (BS : Rabs (bs - be) <= 101 / 100 * uM) by lra. assert (BS0 : 0 <= bs) by (rewrite VS; apply rnd_nonneg; exact B0).
  assert (BS1 : bs <= 1006 / 1000 * M) by (apply Rabs_le_inv in BS; lra).
  set (nc := bval t_nc) in *. assert (NP : 0 < nc) by lra. assert (NZ : nc <> 0) by lra.
  assert (QP : 0 <= bs / nc) by (apply Rmult_le_pos; [exact BS0|apply Rlt_le, Rinv_0_lt_compat; exact NP]).
  assert (QB : bs / nc <= 1009 / 1000 * (M * G)).
  { apply (Rmult_le_reg_r nc); [exact NP|]. replace (bs / nc * nc) with bs by (field; exact NZ).
    assert (M * 1 <= M * (G * s)) by (apply Rmult_le_compat_l; lra). assert (1009 / 1000 * (M * G) * (999 / 1000 * s) <= 1009 / 1000 * (M * G) * nc) by (apply Rmult_le_compat_l; lra).
    replace (1009 / 1000 * (M * G) * (999 / 1000 * s)) with (1009 / 1000 * (999 / 1000) * (M * (G * s))) in * by field. lra. }
  pose proof Wrg as WR.
  destruct (div_range (b_sqrt t_b) t_nc FS NZ) as [FG VG]. { apply (PropSub4.rnd_room _ 200); [lia|]. fold bs nc. rewrite Rabs_right by lra. destruct WR as [_ W2]. apply Rle_trans with (bpow radix2 190); [lra|apply bpow_le; lia]. }
  fold t_g in FG, VG. fold bs nc in VG. pose proof (rnd_err (bs / nc)) as EG. rewrite <- VG in EG. rewrite (Rabs_right (bs / nc)) in EG by lra.
  assert (G0 : 0 <= gm) by (rewrite VG; apply rnd_nonneg; exact QP).
  assert (UQ : uu * (bs / nc) <= uu * (1009 / 1000 * (M * G))) by (apply Rmult_le_compat_l; lra). assert (UMG : uu * (M * G) <= 1 / 1000000 * (M * G)) by (apply Rmult_le_compat_r; [lra|rewrite uu_val'; lra]).
  assert (GU : gm <= 11 / 10 * (M * G)) by (apply Rabs_le_inv in EG; lra).
  assert (E1 : Rabs (nc * gm - bs) <= 102 / 100 * uM).
  { replace (nc * gm - bs) with (nc * (gm - bs / nc)) by (field; exact NZ). rewrite Rabs_mult, (Rabs_right nc) by lra. apply Rle_trans with (nc * (uu * (bs / nc) + ee)); [apply Rmult_le_compat_l; lra|].
    replace (nc * (uu * (bs / nc) + ee)) with (uu * bs + nc * ee) by (field; exact NZ). assert (uu * bs <= uu * (1006 / 1000 * M)) by (apply Rmult_le_compat_l; lra). assert (nc * ee <= 1001 / 1000 * ee) by (apply Rmult_le_compat_r; lra). lra. }
  assert (E2 : Rabs (s * gm - be) <= 120 * (uM * G)).
  { replace (s * gm - be) with ((nc * gm - bs) + (bs - be) + - (nc - s) * gm) by ring. eapply Rle_trans; [apply Rabs_triang|]. eapply Rle_trans; [apply Rplus_le_compat_r, Rabs_triang|]. rewrite Rabs_mult, Rabs_Ropp, (Rabs_right gm) by lra.
    assert (Rabs (nc - s) * gm <= 100 * uu * (11 / 10 * (M * G))) by (apply Rmult_le_compat; auto using Rabs_pos). lra. }
  split; [exact FG|]. split; [lra|]. split; [exact E2|].
  rewrite <- BB. replace (s * gm * (s * gm) - be * be) with ((s * gm - be) * (s * gm + be)) by ring. rewrite Rabs_mult.
  destruct small_e as (_ & SE1 & SE2). rewrite b19 in SE2.
  assert (SB : Rabs (s * gm + be) <= 203 / 100 * M). { apply Rabs_le_inv in E2. assert (0 <= s * gm) by (apply Rmult_le_pos; lra). rewrite Rabs_right by lra. lra. }
  apply Rle_trans with (120 * (uM * G) * (203 / 100 * M)); [apply Rmult_le_compat; auto using Rabs_pos|].
  assert (uM * G * M <= uM * (G * G) * M) by (apply Rmult_le_compat_r; lra). replace (uM * (G * G) * M) with e2 in * by ring. assert (0 < uM * G) by lra. assert (0 < uM * G * M) by (apply Rmult_lt_0_compat; lra). lra.
Qed.

(** the point on both cones: sg is 1 or -1 *)
Definition cst (sg : R) : vec3 := vadd (vadd (vscale a0 h1) (vscale a1 h2)) (vscale (sg * gm) nx).
Lemma cst_1 sg : LinAlg.dot (cst sg) h1 = a0 + K * a1.
Proof. unfold cst. rewrite !dot_vadd_l, !dot_vscale_l, (dot_comm nx h1), dot_cross_l, (dot_comm h2 h1). unfold unit3 in U1. rewrite U1. ring. Qed.
Lemma cst_2 sg : LinAlg.dot (cst sg) h2 = K * a0 + a1.
Proof. unfold cst. rewrite !dot_vadd_l, !dot_vscale_l, (dot_comm nx h2), dot_cross_r. unfold unit3 in U2. rewrite U2. ring. Qed.
Lemma cst_n sg : sg * sg = 1 -> LinAlg.dot (cst sg) (cst sg) = Q + s * gm * (s * gm).
Proof.
  intros S. unfold cst at 2. rewrite !dot_vadd_r, !dot_vscale_r, cst_1, cst_2. unfold cst. rewrite !dot_vadd_l, !dot_vscale_l, dot_cross_l, dot_cross_r, <- norm_sq.
  replace (s * gm * (s * gm)) with (sg * sg * (s * gm * (s * gm))) by (rewrite S; ring). ring.
Qed.
Lemma cst_len sg : sg * sg = 1 -> 0 <= bval t_b -> Rabs (LinAlg.dot (cst sg) (cst sg) - LinAlg.dot p0 p0) <= 5060 * e2 /\ norm (cst sg) <= 102 / 100 * M.
Proof.
  intros S BP. destruct (g_ok BP) as (_ & _ & _ & E). destruct b_ok as [_ EB]. replace (uu * (W * W)) with (16 * e2) in EB by ring. rewrite (cst_n sg S).
  assert (X : Rabs (Q + s * gm * (s * gm) - LinAlg.dot p0 p0) <= 5060 * e2).
  { replace (Q + s * gm * (s * gm) - LinAlg.dot p0 p0) with ((s * gm * (s * gm) - bval t_b) + (bval t_b - (LinAlg.dot p0 p0 - Q))) by ring. eapply Rle_trans; [apply Rabs_triang|]. lra. }
  split; [exact X|]. destruct small_e as ((E0 & E1) & _). rewrite b19 in E1. pose proof M0 as MP. assert (MMP : 0 < MM) by (apply Rmult_lt_0_compat; lra).
  assert (PP : LinAlg.dot p0 p0 <= MM) by (rewrite <- norm_sq; destruct Hp as (_ & _ & _ & _ & _ & _ & _ & N); pose proof (norm_nonneg p0); apply Rmult_le_compat; lra).
  rewrite <- (cst_n sg S), <- norm_sq in X. apply Rabs_le_inv in X. apply Rnot_lt_le. intros C. assert (102 / 100 * M * (102 / 100 * M) < norm (cst sg) * norm (cst sg)) by (apply Rmult_le_0_lt_compat; lra). lra.
Qed.
(** the stored point *)
Lemma comb_ok g' sg : (g' = t_g /\ sg = 1 \/ g' = Bopp t_g /\ sg = -1) -> 0 <= bval t_b ->
  exists c, vtr 0 (2 * M) (l_comb A k1 k2 t_x t_a0 t_a1 g') c /\ norm (vsub c (cst sg)) <= 2094 * (uM * G).
Proof.
  intros HG' BP. destruct (g_ok BP) as (FG & [G0 GU] & _). destruct a0_ok as (F0 & B0 & _). destruct a1_ok as (F1 & B1 & _).
  assert (FV : bfin g' /\ bval g' = sg * gm). { destruct HG' as [[-> ->]|[-> ->]]; [split; [exact FG|ring]|split; [unfold bfin in *; rewrite is_finite_Bopp; exact FG|rewrite PropSub4.opp_val; ring]]. }
  destruct FV as [Fg Vg]. assert (SG : sg * sg = 1) by (destruct HG' as [[_ ->]|[_ ->]]; ring).
  pose proof M0 as MP. assert (MG : 0 < M * G) by (apply Rmult_lt_0_compat; lra). pose proof uu_pos as U. pose proof uM0 as UM.
  assert (BG : Rabs (bval g') <= 11 / 10 * (M * G)) by (rewrite Vg; destruct HG' as [[_ ->]|[_ ->]]; rewrite Rabs_mult, ?Rabs_R1, ?(Rabs_left (-1)), (Rabs_right gm) by lra; lra).
  assert (W390 : rg 390 W) by (apply (rg_weak 190); [lia|exact Wrg]).
  assert (VA : vtr 0 W [t_a0; t_a1; g'] (V3 a0 a1 (bval g'))).
  { apply vtr_entries; cbn [vx vy vz]; [apply tr_exact; [exact F0|lra]|apply tr_exact; [exact F1|lra]|apply tr_exact; [exact Fg|lra]|].
    eapply Rle_trans; [apply (norm_entries _ (21 / 10 * (M * G))); cbn [vx vy vz]; lra|]. lra. }
  assert (R2 : rg 390 2) by (split; [apply Rle_trans with (bpow radix2 0); [apply bpow_le; lia|cbn; lra]|change 2 with (bpow radix2 1) at 1; apply bpow_le; lia]).
  pose proof x_ok as X. destruct H1 as (x1 & y1 & z1 & E1 & X1 & Y1 & Z1 & N1). destruct H2 as (x2 & y2 & z2 & E2 & X2 & Y2 & Z2 & N2). destruct X as (x3 & y3 & z3 & E3 & X3 & Y3 & Z3 & N3).
  assert (ROW : forall r1 r2 r3 v1 v2 v3, tr 8 1 r1 v1 -> tr 8 1 r2 v2 -> tr 42 1 r3 v3 ->
    bfin (bdot [r1; r2; r3] [t_a0; t_a1; g']) /\ Rabs (bval (bdot [r1; r2; r3] [t_a0; t_a1; g']) - (a0 * v1 + a1 * v2 + sg * gm * v3)) <= 1208 * (uM * G)).
  { intros r1 r2 r3 v1 v2 v3 T1 T2 T3. assert (Bd : Rabs v1 <= 1 /\ Rabs v2 <= 1 /\ Rabs v3 <= 1) by (split; [apply T1|split; [apply T2|apply T3]]).
    apply (tr_weak _ 42) in T1; [|lra|lra]. apply (tr_weak _ 42) in T2; [|lra|lra]. apply (tr_up _ _ 2) in T1; [|lra|lra]. apply (tr_up _ _ 2) in T2; [|lra|lra]. apply (tr_up _ _ 2) in T3; [|lra|lra].
    assert (VR : vtr 42 2 [r1; r2; r3] (V3 v1 v2 v3)) by (apply vtr_entries; cbn [vx vy vz]; [exact T1|exact T2|exact T3|eapply Rle_trans; [apply (norm_entries _ 1); cbn [vx vy vz]; lra|lra]]).
    destruct (vtr_dot bdot 42 0 2 W _ _ _ _ HD ltac:(apply cbs; lra) ltac:(apply cbs; lra) ltac:(apply cbs; lra) R2 W390 VR VA) as (F & E & _). split; [exact F|].
    unfold LinAlg.dot in E. cbn [vx vy vz] in E. rewrite Vg in E. replace (a0 * v1 + a1 * v2 + sg * gm * v3) with (v1 * a0 + v2 * a1 + v3 * (sg * gm)) by ring. eapply Rle_trans; [exact E|]. assert (0 < uM * G) by (apply Rmult_lt_0_compat; lra). lra. }
  destruct (ROW _ _ _ _ _ _ X1 X2 X3) as [FX EX]. destruct (ROW _ _ _ _ _ _ Y1 Y2 Y3) as [FY EY]. destruct (ROW _ _ _ _ _ _ Z1 Z2 Z3) as [FZ EZ].
  set (cx := bdot [x1; x2; x3] _) in *. set (cy := bdot [y1; y2; y3] _) in *. set (cz := bdot [z1; z2; z3] _) in *.
  exists (V3 (bval cx) (bval cy) (bval cz)).
  assert (LC : l_comb A k1 k2 t_x t_a0 t_a1 g' = [cx; cy; cz]) by (rewrite E1, E2, E3; reflexivity).
  assert (NE : norm (vsub (V3 (bval cx) (bval cy) (bval cz)) (cst sg)) <= 2094 * (uM * G)).
  { assert (0 < uM * G) by (apply Rmult_lt_0_compat; lra). eapply Rle_trans; [apply (norm_entries _ (1208 * (uM * G))); [lra|exact EX|exact EY|exact EZ]|]. lra. }
  split; [|exact NE]. rewrite LC. destruct (cst_len sg SG BP) as [_ NC]. destruct small_e as (_ & SE1 & SE2). rewrite b19 in SE2.
  assert (NV : norm (V3 (bval cx) (bval cy) (bval cz)) <= 2 * M).
  { rewrite <- (sub_add (V3 (bval cx) (bval cy) (bval cz)) (cst sg)). eapply Rle_trans; [apply norm_triangle|]. lra. }
  destruct (entry_le (V3 (bval cx) (bval cy) (bval cz))) as (L1 & L2 & L3). cbn [vx vy vz] in L1, L2, L3.
  apply vtr_entries; cbn [vx vy vz]; [apply tr_exact; [exact FX|lra]|apply tr_exact; [exact FY|lra]|apply tr_exact; [exact FZ|lra]|exact NV].
Qed.
(** the stored point against an exact vector on one of the cones *)
Lemma cone_ok sg c v h : unit3 h -> sg * sg = 1 -> 0 <= bval t_b -> norm (vsub c (cst sg)) <= 2094 * (uM * G) -> norm v <= M ->
  Rabs (LinAlg.dot (cst sg) h - LinAlg.dot v h) <= 2452 * (uM * (G * G)) -> Rabs (LinAlg.dot p0 p0 - LinAlg.dot v v) <= 9000 * (uu * MM) ->
  Rabs (LinAlg.dot c h - LinAlg.dot v h) <= 4546 * (uM * (G * G)) /\ Rabs (LinAlg.dot (perp h c) (perp h c) - LinAlg.dot (perp h v) (perp h v)) <= 27800 * e2.
Proof.
  intros UH S BP NC NV HH LV. destruct (cst_len sg S BP) as [LC LN]. destruct small_e as ((SE00 & SE0) & SE1 & SE2). rewrite b19 in SE0, SE2. pose proof M0 as MP. pose proof uM0 as UM. pose proof uu_pos as U.
  assert (MMP : 0 < MM) by (apply Rmult_lt_0_compat; lra). set (ed := uM * (G * G)) in *. assert (EDM : ed * M = e2) by (unfold ed; ring).
  assert (NC' : norm (vsub c (cst sg)) <= 2094 * ed) by lra. assert (ED0 : 0 < ed) by (assert (0 < uM * G) by (apply Rmult_lt_0_compat; lra); lra).
  assert (NCN : norm c <= 103 / 100 * M) by (rewrite <- (sub_add c (cst sg)); eapply Rle_trans; [apply norm_triangle|]; lra).
  assert (DH : Rabs (LinAlg.dot c h - LinAlg.dot v h) <= 4546 * ed).
  { rewrite (dot_split c (cst sg)). eapply Rle_trans; [apply Rabs_triang|].
    assert (Rabs (LinAlg.dot (vsub c (cst sg)) h) <= 2094 * ed) by (eapply Rle_trans; [apply abs_dot_le|]; rewrite (norm_unit _ UH); lra). lra. }
  split; [exact DH|].
  rewrite !(perp_norm h _ UH).
  assert (D1 : Rabs (LinAlg.dot c c - LinAlg.dot (cst sg) (cst sg)) <= 4300 * e2).
  { rewrite dot_diff. eapply Rle_trans; [apply abs_dot_le|].
    assert (norm (vadd c (cst sg)) <= 205 / 100 * M) by (eapply Rle_trans; [apply norm_triangle|]; lra).
    apply Rle_trans with (2094 * ed * (205 / 100 * M)); [apply Rmult_le_compat; auto using norm_nonneg|]. rewrite <- EDM. assert (0 < ed * M) by (apply Rmult_lt_0_compat; lra). lra. }
  assert (DC : Rabs (LinAlg.dot c h) <= 103 / 100 * M) by (eapply Rle_trans; [apply abs_dot_le|]; rewrite (norm_unit _ UH); lra).
  assert (DV : Rabs (LinAlg.dot v h) <= M) by (eapply Rle_trans; [apply abs_dot_le|]; rewrite (norm_unit _ UH); lra).
  assert (D2 : Rabs (LinAlg.dot c h * LinAlg.dot c h - LinAlg.dot v h * LinAlg.dot v h) <= 9300 * e2).
  { replace (LinAlg.dot c h * LinAlg.dot c h - LinAlg.dot v h * LinAlg.dot v h) with ((LinAlg.dot c h - LinAlg.dot v h) * (LinAlg.dot c h + LinAlg.dot v h)) by ring. rewrite Rabs_mult.
    assert (Rabs (LinAlg.dot c h + LinAlg.dot v h) <= 203 / 100 * M) by (eapply Rle_trans; [apply Rabs_triang|]; lra).
    apply Rle_trans with (4546 * ed * (203 / 100 * M)); [apply Rmult_le_compat; auto using Rabs_pos|]. rewrite <- EDM. assert (0 < ed * M) by (apply Rmult_lt_0_compat; lra). lra. }
  assert (U2M : uu * MM <= e2). { replace e2 with (uu * MM * (G * G)) by ring. rewrite <- (Rmult_1_r (uu * MM)) at 1. assert (1 * 1 <= G * G) by (apply Rmult_le_compat; lra). assert (0 < uu * MM) by (apply Rmult_lt_0_compat; lra). apply Rmult_le_compat_l; lra. }
  apply Rabs_le_inv in D1, D2, LC, LV. apply Rabs_le. lra.
Qed.

(** the angle subproblem1 finds for such a point *)
Context (HL : libm_arc_ok L (8 * uu)) (r : R) (R1 : 1 <= r) (HR : G * G * (r * r) <= bpow radix2 34).
Lemma r_le : r <= 131072.
Proof. apply Rnot_lt_le. intros C. assert (1 * 1 <= G * G) by (apply Rmult_le_compat; lra). assert (131072 * 131072 < r * r) by (apply Rmult_le_0_lt_compat; lra). assert (1 * (r * r) <= G * G * (r * r)) by (apply Rmult_le_compat_r; lra). cbn in HR. lra. Qed.
Definition tol : R := M * r * (10100000 * uu + 32500 * uu * (G * G)).
Lemma perp_low sg c v h : unit3 h -> norm v <= M -> sg * sg = 1 -> 0 <= bval t_b -> norm (vsub c (cst sg)) <= 2094 * (uM * G) ->
  Rabs (LinAlg.dot (cst sg) h - LinAlg.dot v h) <= 2452 * (uM * (G * G)) -> Rabs (LinAlg.dot p0 p0 - LinAlg.dot v v) <= 9000 * (uu * MM) -> M <= r * norm (perp h v) ->
  0 < norm (perp h v) /\ norm (perp h v) <= M /\ 97 / 100 * norm (perp h v) <= norm (perp h c) /\ Rabs (norm (perp h v) - norm (perp h c)) <= 27800 * (uM * (G * G) * r) /\ Rabs (LinAlg.dot c h - LinAlg.dot v h) <= 4546 * (uM * (G * G)).
Proof.
  intros UH NV S BP NC HH LV PV. pose proof M0 as MP. pose proof uM0 as UM. pose proof uu_pos as U. pose proof r_le as RB. destruct small_e as ((SE00 & SE0) & SE1 & SE2). rewrite b19 in SE0, SE2.
  destruct (cone_ok sg c v h UH S BP NC NV HH LV) as [DH DP]. rewrite <- !norm_sq in DP. set (n := norm (perp h v)) in *. set (n' := norm (perp h c)) in *.
  assert (N0 : 0 < n) by (apply Rnot_le_lt; intros C; assert (r * n <= r * 0) by (apply Rmult_le_compat_l; lra); lra). assert (N0' : 0 <= n') by apply norm_nonneg.
  assert (NM : n <= M) by (eapply Rle_trans; [apply perp_le; exact UH|exact NV]).
  assert (MR : MM <= r * r * (n * n)) by (replace (r * r * (n * n)) with (r * n * (r * n)) by ring; apply Rmult_le_compat; lra).
  assert (NN : 0 < n * n) by (apply Rmult_lt_0_compat; lra).
  assert (GG0 : 1 <= G * G) by (assert (1 * 1 <= G * G) by (apply Rmult_le_compat; lra); lra).
  assert (EN : e2 <= / 524288 * (n * n)).
  { apply Rle_trans with (uu * (r * r * (n * n)) * (G * G)); [apply Rmult_le_compat_r; [lra|]; apply Rmult_le_compat_l; lra|].
    replace (uu * (r * r * (n * n)) * (G * G)) with (uu * (G * G * (r * r)) * (n * n)) by ring. apply Rmult_le_compat_r; [lra|]. apply Rle_trans with (uu * bpow radix2 34); [apply Rmult_le_compat_l; lra|]. unfold uu. rewrite <- bpow_plus. cbn. lra. }
  assert (NL : 97 / 100 * n <= n'). { apply Rnot_lt_le. intros C. assert (n' * n' < 97 / 100 * n * (97 / 100 * n)) by (apply Rmult_le_0_lt_compat; lra). apply Rabs_le_inv in DP. lra. }
  assert (ED : e2 <= uM * (G * G) * r * n). { replace e2 with (uM * (G * G) * M) by ring. rewrite (Rmult_assoc _ r n). apply Rmult_le_compat_l; [apply Rmult_le_pos; lra|exact PV]. }
  assert (DN : Rabs (n - n') <= 27800 * (uM * (G * G) * r)).
  { apply (Rmult_le_reg_r n); [exact N0|]. apply Rle_trans with (Rabs (n' * n' - n * n)); [|lra]. replace (n' * n' - n * n) with (- (n - n') * (n' + n)) by ring. rewrite Rabs_mult, Rabs_Ropp, (Rabs_right (n' + n)) by lra. apply Rmult_le_compat_l; [apply Rabs_pos|lra]. }
  split; [exact N0|]. split; [exact NM|]. split; [exact NL|]. split; [exact DN|exact DH].
Qed.
Lemma turn_ok sg c lc v lv h k t : unit3 h -> vtr 8 1 k h -> vtr 0 M lv v -> vtr 0 (2 * M) lc c -> sg * sg = 1 -> 0 <= bval t_b -> norm (vsub c (cst sg)) <= 2094 * (uM * G) ->
  Rabs (LinAlg.dot (cst sg) h - LinAlg.dot v h) <= 2452 * (uM * (G * G)) -> Rabs (LinAlg.dot p0 p0 - LinAlg.dot v v) <= 9000 * (uu * MM) -> M <= r * norm (perp h v) ->
  g_subproblem1 A lv lc k = Ok t -> bfin t /\ Rabs (bval t) <= 16 / 5 /\ norm (vsub (rotate h (bval t) v) c) <= sqrt_eps + tol.
Proof.
  intros UH VK VV VC S BP NC HH LV PV E. pose proof M0 as MP. pose proof uM0 as UM. pose proof uu_pos as U. pose proof r_le as RB. destruct small_e as ((SE00 & SE0) & SE1 & SE2). rewrite b19 in SE0, SE2.
  assert (NV : norm v <= M) by (destruct VV as (_ & _ & _ & _ & _ & _ & _ & N); exact N).
  destruct (perp_low sg c v h UH NV S BP NC HH LV PV) as (N0 & NM & NL & DN & DH). set (n := norm (perp h v)) in *. set (n' := norm (perp h c)) in *.
  assert (GG0 : 1 <= G * G) by (assert (1 * 1 <= G * G) by (apply Rmult_le_compat; lra); lra).
  assert (M2 : rg 380 (2 * M)) by (apply (rg_weak 153); [lia|]; apply (rg_scale 150); [exact HM|lra]).
  assert (HZ : h <> vzero) by (intros ->; unfold unit3, LinAlg.dot in UH; cbn in UH; lra).
  assert (VV8 : vtr 8 (2 * M) lv v). { replace 8 with (8 * 1) by ring. apply (vtr_mag 8 M 1); [lra|lra|lra|]. apply (vtr_weak 0); [lra|lra|exact VV]. }
  assert (VC8 : vtr 8 (2 * M) lc c) by (apply (vtr_weak 0); [lra|lra|exact VC]).
  destruct (sub1_acc L bdot HD HL 8 (21 / 10 * r) (2 * M) 1 lv lc k v c h t) as (FT & BT & ALT); try assumption; try lra.
  { apply rg_1. lia. }
  { rewrite (norm_unit _ UH). lra. }
  { rewrite (dir_of_unit _ UH). fold n. lra. }
  { rewrite (dir_of_unit _ UH). fold n'. assert (r * (97 / 100 * n) <= r * n') by (apply Rmult_le_compat_l; lra). lra. }
  split; [exact FT|]. split; [exact BT|]. rewrite (dir_of_unit _ UH) in ALT.
  assert (MRU : uM <= uM * r) by (rewrite <- (Rmult_1_r uM) at 1; apply Rmult_le_compat_l; lra).
  assert (PG : 0 < uM * (G * G)) by (apply Rmult_lt_0_compat; lra). assert (GR : uM * (G * G) <= uM * (G * G) * r) by (rewrite <- (Rmult_1_r (uM * (G * G))) at 1; apply Rmult_le_compat_l; lra).
  assert (TE : tol = 10100000 * (uM * r) + 32500 * (uM * (G * G) * r)) by (unfold tol; ring).
  destruct ALT as [[T0 B]|B].
  - rewrite T0, rot_0. lra.
  - unfold dir in B. fold n n' in B. rewrite (rot_split h (bval t) v c n n' UH) by lra.
    eapply Rle_trans; [apply norm_triangle|]. eapply Rle_trans; [apply Rplus_le_compat_r, norm_triangle|]. rewrite !norm_vscale. rewrite (norm_unit _ UH), (Rabs_right n) by lra. fold n'.
    assert (Rabs (/ n') * n' = 1) as -> by (rewrite Rabs_inv, (Rabs_right n') by lra; field; lra).
    assert (n * norm (vsub (rotate h (bval t) (vscale (/ n) (perp h v))) (vscale (/ n') (perp h c))) <= M * (300000 * (21 / 10 * r * (8 + 8)) * uu)) by (apply Rmult_le_compat; auto using norm_nonneg; lra).
    rewrite (Rabs_minus_sym (LinAlg.dot v h)). pose proof sqrt_eps_pos. lra.
Qed.

(** against the exact equations *)
Context (q' : vec3) (NQ' : norm q' <= M) (HQ' : Rabs (LinAlg.dot q' h1 - qe) <= 16 * uM).
Notation qe' := (LinAlg.dot q' h1).
Notation al0 := ((qe' - K * pe) / D).
Notation al1 := ((pe - K * qe') / D).
Lemma al_ok : Rabs (a0 - al0) <= 1242 * (uM * (G * G)) /\ Rabs (a1 - al1) <= 1242 * (uM * (G * G)).
Proof.
  pose proof K1 as KB. assert (UG : uM * 1 <= uM * G) by (pose proof uM0; apply Rmult_le_compat_l; lra).
  destruct a0_ok as (_ & _ & E0). destruct a1_ok as (_ & _ & E1). destruct D_pos as (DP & DG & _). pose proof uM0 as UM.
  assert (SC : forall x y, D * x = y -> Rabs y <= 1242 * (uM * G) -> Rabs x <= 1242 * (uM * (G * G))).
  { intros x y E B. rewrite <- E, Rabs_mult, (Rabs_right D) in B by lra. pose proof (Rabs_pos x) as X0.
    assert (Rabs x * 1 <= Rabs x * (G * D)) by (apply Rmult_le_compat_l; lra). assert (G * (D * Rabs x) <= G * (1242 * (uM * G))) by (apply Rmult_le_compat_l; lra). lra. }
  split.
  - apply (SC _ (- (- D * a0 - (K * pe - qe)) + - (qe' - qe))); [field; lra|]. eapply Rle_trans; [apply Rabs_triang|]. rewrite !Rabs_Ropp. lra.
  - apply (SC _ (- (- D * a1 - (- pe + K * qe)) + K * (qe' - qe))); [field; lra|]. eapply Rle_trans; [apply Rabs_triang|]. rewrite Rabs_Ropp, Rabs_mult.
    assert (Rabs K * Rabs (qe' - qe) <= 1 * (16 * uM)) by (apply Rmult_le_compat; auto using Rabs_pos). lra.
Qed.
Notation gp := (cone_gap p0 q' h1 h2).
Lemma b_gap : Rabs (bval t_b - gp) <= 9900 * e2.
Proof.
  destruct b_ok as [_ EB]. replace (uu * (W * W)) with (16 * e2) in EB by ring. destruct al_ok as [E0 E1]. destruct heights as [N1 N2]. destruct D_pos as (DP & _). pose proof pe_le as PB. assert (QB : Rabs qe' <= M) by (eapply Rle_trans; [apply abs_dot_le|]; rewrite (norm_unit _ U1); lra). pose proof M0 as MP.
  destruct small_e as ((SE00 & SE0) & SE1 & SE2). rewrite b19 in SE0, SE2. set (ed := uM * (G * G)) in *. assert (EDM : ed * M = e2) by (unfold ed; ring).
  assert (ED1 : uM <= ed) by (unfold ed; pose proof uM0 as UM; assert (1 * 1 <= G * G) by (apply Rmult_le_compat; lra); assert (uM * 1 <= uM * (G * G)) by (apply Rmult_le_compat_l; lra); lra).
  assert (N1' : Rabs (a0 + K * a1 - qe') <= 2468 * ed) by (replace (a0 + K * a1 - qe') with ((a0 + K * a1 - qe) + - (qe' - qe)) by ring; eapply Rle_trans; [apply Rabs_triang|]; rewrite Rabs_Ropp; lra).
  assert (N2' : Rabs (K * a0 + a1 - pe) <= 2468 * ed) by (pose proof uM0; lra).
  assert (ID : LinAlg.dot p0 p0 - Q - gp = - ((a0 - al0) * (2 * qe' + (a0 + K * a1 - qe')) + (a1 - al1) * (2 * pe + (K * a0 + a1 - pe)))).
  { unfold cone_gap. field. lra. }
  assert (T : forall x y z, Rabs x <= 1242 * ed -> Rabs y <= M -> Rabs z <= 2468 * ed -> Rabs (x * (2 * y + z)) <= 2530 * e2).
  { intros x y z X Y Z0. rewrite Rabs_mult. assert (Rabs (2 * y + z) <= 203 / 100 * M) by (eapply Rle_trans; [apply Rabs_triang|]; rewrite Rabs_mult, (Rabs_right 2) by lra; lra).
    apply Rle_trans with (1242 * ed * (203 / 100 * M)); [apply Rmult_le_compat; auto using Rabs_pos|]. rewrite <- EDM. rewrite <- EDM in SE00. lra. }
  pose proof (T _ _ _ E0 QB N1') as T0. pose proof (T _ _ _ E1 PB N2') as T1.
  replace (bval t_b - gp) with ((bval t_b - (LinAlg.dot p0 p0 - Q)) + (LinAlg.dot p0 p0 - Q - gp)) by ring. rewrite ID.
  eapply Rle_trans; [apply Rabs_triang|]. rewrite Rabs_Ropp. pose proof (Rabs_triang ((a0 - al0) * (2 * qe' + (a0 + K * a1 - qe'))) ((a1 - al1) * (2 * pe + (K * a0 + a1 - pe)))). lra.
Qed.
Lemma gap_big be : bpow radix2 (-36) * (G * G) <= be * be -> 4 * eps <= be * be * MM -> be * be * MM <= gp -> 9 / 10 * (be * be * MM) <= bval t_b /\ 2 * eps <= bval t_b.
Proof.
  intros B1 B2 B3. pose proof b_gap as E. apply Rabs_le_inv in E. destruct D_pos as (DP & _). pose proof (Rle_0_sqr K) as KS. unfold Rsqr in KS. pose proof M0 as MP. assert (MMP : 0 < MM) by (apply Rmult_lt_0_compat; lra).
  assert (EP : 0 < eps) by apply eps_pos.
  assert (EE : 131072 * e2 <= be * be * MM). { apply Rle_trans with (bpow radix2 (-36) * (G * G) * MM); [|apply Rmult_le_compat_r; lra]. replace (bpow radix2 (-36)) with (131072 * uu) by (change 131072 with (bpow radix2 17); unfold uu; rewrite <- bpow_plus; reflexivity). lra. }
  lra.
Qed.
(** an exact solution is close to one of the two stored points *)
Lemma cst_near c0 be : LinAlg.dot c0 c0 = LinAlg.dot p0 p0 -> LinAlg.dot c0 h2 = pe -> LinAlg.dot c0 h1 = qe' -> 0 < be <= 1 -> bpow radix2 (-36) * (G * G) <= be * be -> 4 * eps <= be * be * MM -> 84 / 100 * (be * be * MM) <= gp -> 0 <= bval t_b ->
  exists sg, (sg = 1 \/ sg = -1) /\ norm (vsub c0 (cst sg)) <= 13700 * (uM * (G * G) / be).
Proof.
  intros E E2 E1 [BP BL] B1 B2 ZZ TB. destruct D_pos as (DP & _). pose proof (gap_solution _ _ _ _ _ U1 U2 E E2 E1 ltac:(lra)) as GS. set (z := LinAlg.dot c0 nx) in *. pose proof M0 as MP.
  destruct (g_ok TB) as (_ & [G0 _] & _ & EG). pose proof b_gap as EB. destruct s_rng as (S1 & S2 & S3). pose proof s_sq as SS.
  destruct small_e as ((SE00 & SE0) & SE1 & SE2). set (ed := uM * (G * G)) in *. assert (EDM : ed * M = e2) by (unfold ed; ring). assert (ED0 : 0 < ed) by (pose proof uM0; assert (0 < uM * G) by (apply Rmult_lt_0_compat; lra); lra).
  set (w := Rabs z / s). assert (WW : w * w = gp). { unfold w. apply (Rmult_eq_reg_r D); [|lra]. rewrite GS, <- SS. replace (z * z) with (Rabs z * Rabs z) by (rewrite <- Rabs_mult, Rabs_right; [reflexivity|pose proof (Rle_0_sqr z); unfold Rsqr in *; lra]). field. lra. }
  assert (BM : 0 < be * M) by (apply Rmult_lt_0_compat; lra).
  assert (W0 : 0 <= w) by (unfold w; apply Rmult_le_pos; [apply Rabs_pos|apply Rlt_le, Rinv_0_lt_compat; lra]).
  assert (WL : 91 / 100 * (be * M) <= w) by (apply Rnot_lt_le; intros C; assert (w * w < 91 / 100 * (be * M) * (91 / 100 * (be * M))) by (apply Rmult_le_0_lt_compat; lra); assert (0 < be * M * (be * M)) by (apply Rmult_lt_0_compat; lra); lra).
  assert (DW : Rabs (w - s * gm) <= 11200 * (ed / be)).
  { apply (Rmult_le_reg_r (91 / 100 * (be * M))); [lra|]. replace (11200 * (ed / be) * (91 / 100 * (be * M))) with (10192 * (ed * M)) by (field; lra). rewrite EDM.
    apply Rle_trans with (Rabs (w * w - s * gm * (s * gm))).
    - replace (w * w - s * gm * (s * gm)) with ((w - s * gm) * (w + s * gm)) by ring. rewrite Rabs_mult. assert (0 <= s * gm) by (apply Rmult_le_pos; lra). rewrite (Rabs_right (w + s * gm)) by lra. apply Rmult_le_compat_l; [apply Rabs_pos|lra].
    - rewrite WW. replace (gp - s * gm * (s * gm)) with (- (bval t_b - gp) + - (s * gm * (s * gm) - bval t_b)) by ring. eapply Rle_trans; [apply Rabs_triang|]. rewrite !Rabs_Ropp. lra. }
  destruct al_ok as [A0 A1]. fold ed in A0, A1.
  assert (EDB : ed <= ed / be). { apply (Rmult_le_reg_r be); [exact BP|]. replace (ed / be * be) with ed by (field; lra). assert (ed * be <= ed * 1) by (apply Rmult_le_compat_l; lra). lra. }
  assert (CS : exists sg, (sg = 1 \/ sg = -1) /\ z = sg * Rabs z). { destruct (Rle_or_lt 0 z); [exists 1; rewrite Rabs_right by lra|exists (-1); rewrite Rabs_left by lra]; (split; [lra|ring]). }
  destruct CS as (sg & SG & ZE). exists sg. split; [exact SG|].
  assert (SA : Rabs sg = 1) by (destruct SG as [-> | ->]; [apply Rabs_R1|rewrite Rabs_left; lra]).
  assert (CE : vsub c0 (cst sg) = vadd (vadd (vscale (al0 - a0) h1) (vscale (al1 - a1) h2)) (vscale (sg * (w - s * gm) / s) nx)).
  { pose proof (basis_split h1 h2 c0) as B. unfold unit3 in U1, U2. rewrite U1, U2, E1, E2 in B. fold z in B.
    assert (CD : c0 = vadd (vadd (vscale al0 h1) (vscale al1 h2)) (vscale (z / D) nx)).
    { transitivity (vscale (/ D) (vscale D c0)); [destruct c0 as [c1 c2 c3]; unfold vscale; cbn [vx vy vz]; f_equal; field; lra|]. replace D with (1 * 1 - K * K) at 2 by ring. rewrite B.
      destruct h1 as [h11 h12 h13], h2 as [h21 h22 h23]. unfold vadd, vscale. cbn [vx vy vz]. f_equal; field; lra. }
    rewrite CD. unfold cst. assert (ZD : z / D = sg * gm + sg * (w - s * gm) / s) by (unfold w; rewrite ZE at 1; rewrite <- SS; field; lra). rewrite ZD.
    set (u1 := al0). set (u2 := al1). set (nn := nx). set (g1 := sg * gm). set (g2 := sg * (w - s * gm) / s). generalize a0 a1. intros b0 b1. destruct h1 as [h11 h12 h13], h2 as [h21 h22 h23], nn as [n1 n2 n3]. unfold vadd, vsub, vscale. cbn [vx vy vz]. f_equal; ring. }
  rewrite CE. eapply Rle_trans; [apply norm_triangle|]. eapply Rle_trans; [apply Rplus_le_compat_r, norm_triangle|]. rewrite !norm_vscale, (norm_unit _ U1), (norm_unit _ U2).
  assert (Rabs (sg * (w - s * gm) / s) * s = Rabs (w - s * gm)) as ->. { unfold Rdiv. rewrite !Rabs_mult, SA, Rabs_inv, (Rabs_right s) by lra. field. lra. }
  rewrite (Rabs_minus_sym _ a0), (Rabs_minus_sym _ a1). lra.
Qed.
End Sub2.
