(** Property C106: subproblem4 in binary64. *)
From Coq Require Import Reals ZArith List Bool Lra Lia Psatz.
From Flocq Require Import Core.Core IEEE754.BinarySingleNaN.
From Verif Require Import LinAlg RealAux Py FactsReal FactsLinAlg ModelRot SpecRot FactsRot FactsNorm SpecSub ModelSub ModelFloat ModelFloat9 SpecRound FactsB64 FactsExact FactsTrack SpecArc SpecRpy FactsAngle PropPi PropAngle SpecSub4.
From Verif Require Import FactsFloat.
From Verif Require FactsTaylor FactsRpy PropNorm PropElbow PropRpy PropSub.
Import ListNotations.
Open Scope R_scope.

(* ---- the length of two numbers ---- *)
Definition b_z : b64 := b_lit 0 1.
Lemma add_z s : bfin s -> bfin (b_add s b_zero) /\ bval (b_add s b_zero) = bval s.
Proof.
  intros F. assert (Z : bval b_zero = 0) by reflexivity. destruct (add_range s b_zero F eq_refl) as [F1 V].
  - rewrite Z, Rplus_0_r, (rnd_exact (bval s)) by (apply generic_format_B2R). apply Rlt_bool_true. apply abs_B2R_lt_emax.
  - split; [exact F1|]. rewrite V, Z, Rplus_0_r. apply rnd_exact. apply generic_format_B2R.
Qed.
Lemma dot2_3 dot a b : In dot b_dots -> bfin (dot [a; b; b_zero] [a; b; b_zero]) -> bfin (dot [a; b] [a; b]) /\ bval (dot [a; b] [a; b]) = bval (dot [a; b; b_zero] [a; b; b_zero]).
Proof.
  assert (S : forall l s, sum_seq (l ++ [(b_zero, b_zero)]) = s -> bfin s -> bfin (sum_seq l) /\ bval (sum_seq l) = bval s).
  { intros l s <- F. unfold sum_seq in *. rewrite fold_left_app in *. cbn [fold_left fst snd] in *. change (b_mul b_zero b_zero) with b_zero in *.
    destruct (add_fin _ _ F) as [F1 _]. split; [exact F1|]. symmetry. apply add_z, F1. }
  assert (SF : forall l s, sum_fma (l ++ [(b_zero, b_zero)]) = s -> bfin s -> bfin (sum_fma l) /\ bval (sum_fma l) = bval s).
  { intros l s <- F. unfold sum_fma in *. rewrite fold_left_app in *. cbn [fold_left fst snd] in *.
    destruct (fma_fin _ _ _ F) as (_ & _ & F1). split; [exact F1|]. symmetry.
    set (x := fold_left _ l b_zero) in *. pose proof (fma_val _ _ _ F) as V. rewrite V. assert (Z : bval b_zero = 0) by reflexivity. rewrite Z, Rmult_0_l, Rplus_0_l. apply rnd_exact, generic_format_B2R. }
  intros HD. repeat (destruct HD as [<- | HD]); [| | | | | | destruct HD]; cbn [combine]; intros F.
  - apply (S [(a, a); (b, b)]); [reflexivity|exact F].
  - apply (SF [(a, a); (b, b)]); [reflexivity|exact F].
  - split; [exact F|reflexivity].
  - split; [exact F|reflexivity].
  - apply (S [(a, a); (b, b)]); [reflexivity|exact F].
  - apply (S [(a, a); (b, b)]); [reflexivity|exact F].
Qed.
Lemma len2 dot a b : In dot b_dots -> upto 400 a -> upto 400 b ->
  let n := sqrt (bval a * bval a + bval b * bval b) in let y := b_sqrt (dot [a; b] [a; b]) in
  bfin y /\ 0 <= bval y /\ Rabs (bval y - n) <= 6 * uu * n + bpow radix2 (-530).
Proof.
  intros HD Ua Ub n y. assert (Uz : upto 400 b_zero) by (split; [reflexivity|]; assert (bval b_zero = 0) as -> by reflexivity; rewrite Rabs_R0; apply bpow_ge_0).
  destruct (len_rel dot a b b_zero HD Ua Ub Uz) as ((_ & V) & P & E).
  destruct (dot2_3 dot a b HD) as [F2 V2]; [apply (dot3_fin dot HD); assumption|].
  pose proof (dot_self_b dot HD a b b_zero ltac:(apply (dot3_fin dot HD); assumption)) as P3. rewrite <- V2 in P3.
  destruct (sqrt_range0 _ F2 P3) as [F V']. fold y in F, V'. rewrite V2, <- V in V'. split; [exact F|]. rewrite V'. split; [exact P|].
  unfold blen in E. assert (Z : bval b_zero = 0) by reflexivity. rewrite Z in E. replace (bval a * bval a + bval b * bval b + 0 * 0) with (bval a * bval a + bval b * bval b) in E by ring. exact E.
Qed.

(* ---- the coefficients ---- *)
Definition v3l (x : v3 b64) : list b64 := [w0 x; w1 x; w2 x].
Lemma cb_small c : 0 <= c <= 4000000 -> cb c. Proof. unfold cb. lra. Qed.
Lemma div_fin' x y : bfin (b_div x y) -> bfin y -> bfin x /\ bval y <> 0 /\ bval (b_div x y) = rnd (bval x / bval y).
Proof.
  intros Fd Fy. assert (N0 : bval y <> 0).
  { intros Z. destruct y as [s|s| |s m e Hb]; try discriminate Fy.
    - destruct x as [s'|s'| |s' m' e' Hb']; vm_compute in Fd; discriminate Fd.
    - unfold bval, B2R in Z. apply eq_0_F2R in Z. cbn in Z. destruct s; discriminate Z. }
  assert (Fx : bfin x). { destruct x as [s'|s'| |s' m' e' Hb']; try reflexivity; exfalso; destruct y as [s|s| |s m e Hb]; try discriminate Fy; vm_compute in Fd; discriminate Fd. }
  split; [exact Fx|]. split; [exact N0|]. pose proof (Bdiv_correct 53 1024 prec64 emax64 mode_NE x y N0) as C. cbv zeta in C. change (round radix2 _ _ _) with (rnd (bval x / bval y)) in C.
  destruct (Rlt_bool _ _); [apply C|]. exfalso. apply (overflow_not_finite _ _ C). exact Fd.
Qed.
Lemma ee_small' : ee <= 1 / 100 * uu.
Proof. unfold ee, uu. replace (-1075)%Z with (-1022 + -53)%Z by lia. rewrite bpow_plus. apply Rmult_le_compat_r; [apply bpow_ge_0|]. apply Rle_trans with (bpow radix2 (-10)); [apply bpow_le; lia|cbn; lra]. Qed.
Lemma opp_val x : bval (Bopp x) = - bval x. Proof. apply B2R_Bopp. Qed.
Lemma opp_fin (x : b64) : bfin (Bopp x) -> bfin x. Proof. unfold bfin. rewrite is_finite_Bopp. exact (fun H => H). Qed.
Lemma rnd_room v n : (0 <= n <= 1000)%Z -> Rabs v <= bpow radix2 n -> Rlt_bool (Rabs (rnd v)) (bpow radix2 1024) = true.
Proof.
  intros Hn B. apply Rlt_bool_true. pose proof (rnd_err v) as E. pose proof uu_small as U. pose proof uu_pos. pose proof ee_le_uu. pose proof (Rabs_pos v) as P.
  assert (T : Rabs (rnd v) <= Rabs v + (uu * Rabs v + ee)). { replace (rnd v) with (v + (rnd v - v)) at 1 by ring. eapply Rle_trans; [apply Rabs_triang|]. lra. }
  assert (uu * Rabs v <= 1 / 1000000 * Rabs v) by (apply Rmult_le_compat_r; lra).
  assert (Q : 1 <= bpow radix2 n) by (change 1 with (bpow radix2 0); apply bpow_le; lia).
  apply Rle_lt_trans with (2 * bpow radix2 n); [lra|]. change 2 with (bpow radix2 1). rewrite <- bpow_plus. apply bpow_lt. lia.
Qed.
Lemma sin_ge z : 0 <= z <= 8 / 5 -> 57 / 100 * z <= sin z.
Proof.
  intros H. destruct (pre_sin_bound z 0) as [B _]; [lra|lra|]. unfold sin_approx, sin_term in B. cbn [sum_f_R0 Nat.mul Nat.add fact pow INR] in B.
  assert (X : z * (1 - z * z / 6) <= sin z) by (eapply Rle_trans; [|exact B]; apply Req_le; cbn; field). nra.
Qed.
Lemma sin_ge_abs z : Rabs z <= 8 / 5 -> 57 / 100 * Rabs z <= Rabs (sin z).
Proof.
  intros H. unfold Rabs at 1. destruct (Rcase_abs z) as [C | C].
  - pose proof (sin_ge (- z)) as G. rewrite sin_neg in G. apply Rabs_le_inv in H. apply Rle_trans with (- sin z); [apply G; lra|]. rewrite <- Rabs_Ropp. apply Rle_abs.
  - pose proof (sin_ge z) as G. apply Rabs_le_inv in H. apply Rle_trans with (sin z); [apply G; lra|]. apply Rle_abs.
Qed.
Lemma asin_stable y s : - (PI / 2) <= y <= PI / 2 -> - (PI / 2) <= s <= PI / 2 -> Rabs (y - s) * cos s <= 36 / 10 * Rabs (sin y - sin s).
Proof.
  intros Hy Hs. pose proof pi_hi as PH. set (z := (y - s) / 2). set (w := (y + s) / 2).
  assert (E : sin y - sin s = 2 * cos w * sin z). { unfold w, z. replace (sin y) with (sin ((y + s) / 2 + (y - s) / 2)) by (f_equal; field). replace (sin s) with (sin ((y + s) / 2 - (y - s) / 2)) by (f_equal; field). rewrite sin_plus, sin_minus. ring. }
  assert (C : cos y + cos s = 2 * cos w * cos z). { unfold w, z. replace (cos y) with (cos ((y + s) / 2 + (y - s) / 2)) by (f_equal; field). replace (cos s) with (cos ((y + s) / 2 - (y - s) / 2)) by (f_equal; field). rewrite cos_plus, cos_minus. ring. }
  assert (Cw : 0 <= cos w) by (apply cos_ge_0; unfold w; lra). assert (Cy : 0 <= cos y) by (apply cos_ge_0; lra). assert (Cs : 0 <= cos s) by (apply cos_ge_0; lra).
  pose proof (COS_bound z) as Bz. assert (W : cos s <= 2 * cos w). { assert (cos w * cos z <= cos w * 1) by (apply Rmult_le_compat_l; lra). lra. }
  assert (G : 57 / 100 * Rabs z <= Rabs (sin z)) by (apply sin_ge_abs; unfold z; apply Rabs_le; lra).
  rewrite E, !Rabs_mult, (Rabs_right 2), (Rabs_right (cos w)) by lra. replace (y - s) with (2 * z) by (unfold z; field). rewrite Rabs_mult, (Rabs_right 2) by lra.
  pose proof (Rabs_pos z) as Z0. assert (T1 : Rabs z * cos s <= Rabs z * (2 * cos w)) by (apply Rmult_le_compat_l; lra).
  assert (T2 : cos w * (57 / 100 * Rabs z) <= cos w * Rabs (sin z)) by (apply Rmult_le_compat_l; lra).
  assert (0 <= Rabs z * cos w) by (apply Rmult_le_pos; lra). lra.
Qed.
Lemma asin_sin_cases s : exists k : Z, s = asin (sin s) + 2 * PI * IZR k \/ s = PI - asin (sin s) + 2 * PI * IZR k.
Proof.
  destruct (FactsRpy.reduce s) as (k & B). pose proof PI_pos. destruct (FactsRpy.turns s k) as [E _]. rewrite <- E. set (r := s - 2 * PI * IZR k) in *.
  assert (SR : s = r + 2 * PI * IZR k) by (unfold r; ring).
  destruct (Rle_dec r (PI / 2)) as [H1 | H1]; [destruct (Rle_dec (- (PI / 2)) r) as [H2 | H2]|].
  - exists k. left. rewrite asin_sin by lra. exact SR.
  - exists (k - 1)%Z. right. replace (sin r) with (sin (- PI - r)); [rewrite asin_sin by lra; rewrite minus_IZR; lra|]. replace (- PI - r) with (- (r + PI)) by ring. rewrite sin_neg, neg_sin. ring.
  - exists k. right. replace (sin r) with (sin (PI - r)) by apply sin_PI_x. rewrite asin_sin by lra. lra.
Qed.
Section Solve.
Context (L : libm) (f : b64 -> b64) (bdot : list b64 -> list b64 -> b64) (HD : In bdot b_dots).
Notation A := (b64_arith L bdot).
Context (p q k : v3 b64) (d : b64) (p0 q0 k0 : vec3) (M N : R).
Context (HM : rg 190 M) (HN : rg 190 N) (HK : unit3 k0).
Context (Hp : vtr 0 M (v3l p) p0) (Hq : vtr 0 N (v3l q) q0) (Hk : vtr 8 1 (v3l k) k0).
Context (Fd : bfin d).
Notation uK := (uu * (M * N)).

Definition s_a : b64 := g_dot3 A (g_vm A p (g_hat A k)) q.
Definition s_b : b64 := Bopp (g_dot3 A p (g_mv A (g_hat A k) (g_mv A (g_hat A k) q))).
Definition s_e : b64 := b_sub (g_dot3 A p q) s_b.
Definition s_c : b64 := b_sub d s_e.
Definition s_n : b64 := b_sqrt (bdot [s_a; s_b] [s_a; s_b]).
Definition s_d : b64 := b_div s_c s_n.
Definition r_a : R := LinAlg.dot p0 (cross k0 q0).
Definition r_b : R := - LinAlg.dot p0 (cross k0 (cross k0 q0)).
Definition r_c : R := bval d - (LinAlg.dot p0 q0 - r_b).

Lemma HM' : rg 390 M. Proof. apply (rg_weak 190); [lia|exact HM]. Qed.
Lemma HN' : rg 390 N. Proof. apply (rg_weak 190); [lia|exact HN]. Qed.
Lemma rg1 : rg 390 1. Proof. apply rg_1. lia. Qed.
Lemma Kpos : 0 < M * N. Proof. apply Rmult_lt_0_compat; eapply rg_pos; eassumption. Qed.
Lemma Krg : rg 380 (M * N). Proof. exact (rg_mul 190 190 M N HM HN). Qed.

Lemma zero_tr : tr 8 1 (nzero A) 0.
Proof. split; [reflexivity|]. assert (bval (nzero A) = 0) as -> by reflexivity. rewrite Rminus_0_r, Rabs_R0. pose proof uu_pos. split; lra. Qed.
Lemma norm_comp x y z : norm (V3 x y z) <= norm (V3 x y z). Proof. lra. Qed.
Lemma norm_sub a b c x y z : a * a + b * b + c * c <= x * x + y * y + z * z -> norm (V3 a b c) <= norm (V3 x y z).
Proof. intros H. unfold norm, norm2, LinAlg.dot. cbn [vx vy vz]. apply sqrt_le_1_alt. exact H. Qed.
Lemma norm1_le : norm k0 <= 1. Proof. destruct Hk as (_ & _ & _ & _ & _ & _ & _ & H). exact H. Qed.
Lemma row_tr x y z a b c : tr 8 1 x a -> tr 8 1 y b -> tr 8 1 z c -> a * a + b * b + c * c <= 1 -> vtr 8 1 [x; y; z] (V3 a b c).
Proof.
  intros X Y Z H. apply vtr_entries; try assumption. replace 1 with (norm (V3 1 0 0)); [apply norm_sub; lra|]. unfold norm, norm2, LinAlg.dot. cbn [vx vy vz]. replace (1 * 1 + 0 * 0 + 0 * 0) with 1 by ring. apply sqrt_1.
Qed.
Lemma k_entries : tr 8 1 (w0 k) (vx k0) /\ tr 8 1 (w1 k) (vy k0) /\ tr 8 1 (w2 k) (vz k0) /\ vx k0 * vx k0 + vy k0 * vy k0 + vz k0 * vz k0 = 1.
Proof. destruct Hk as (a & b & c & E & X & Y & Z & _). unfold v3l in E. injection E as -> -> ->. split; [exact X|]. split; [exact Y|]. split; [exact Z|]. unfold unit3, norm2, LinAlg.dot in HK. exact HK. Qed.
Lemma hat_rows : (vtr 8 1 (v3l (w0 (g_hat A k))) (V3 0 (- vz k0) (vy k0)) /\ vtr 8 1 (v3l (w1 (g_hat A k))) (V3 (vz k0) 0 (- vx k0)) /\ vtr 8 1 (v3l (w2 (g_hat A k))) (V3 (- vy k0) (vx k0) 0)) /\
  (vtr 8 1 (v3l (w0 (v3cols (g_hat A k)))) (V3 0 (vz k0) (- vy k0)) /\ vtr 8 1 (v3l (w1 (v3cols (g_hat A k)))) (V3 (- vz k0) 0 (vx k0)) /\ vtr 8 1 (v3l (w2 (v3cols (g_hat A k)))) (V3 (vy k0) (- vx k0) 0)).
Proof.
  destruct k_entries as (X & Y & Z & S). pose proof zero_tr as O. pose proof (tr_opp _ _ _ _ X) as X'. pose proof (tr_opp _ _ _ _ Y) as Y'. pose proof (tr_opp _ _ _ _ Z) as Z'.
  pose proof (Rle_0_sqr (vx k0)). pose proof (Rle_0_sqr (vy k0)). pose proof (Rle_0_sqr (vz k0)). unfold Rsqr in *.
  unfold v3l, g_hat, v3cols, v3map. cbn [w0 w1 w2]. (split; (split; [|split])); apply row_tr; try assumption; nra.
Qed.
Lemma cross_le v m : norm v <= m -> norm (cross k0 v) <= m.
Proof. intros H. eapply Rle_trans; [|exact H]. pose proof (FactsTaylor.norm_cross k0 v) as C. pose proof norm1_le. pose proof (norm_nonneg v). nra. Qed.
Lemma dot_tr c c' m m' x y v w : 0 <= c <= 1000 -> 0 <= c' <= 1000 -> rg 390 m -> rg 390 m' -> vtr c m (v3l x) v -> vtr c' m' (v3l y) w ->
  tr (3 * (1001 / 1000 * (c + c') + 8)) (m * m') (g_dot3 A x y) (LinAlg.dot v w).
Proof. intros C C' R1 R2 X Y. exact (vtr_dot bdot c c' m m' (v3l x) (v3l y) v w HD ltac:(apply cb_small; lra) ltac:(apply cb_small; lra) ltac:(apply cb_small; lra) R1 R2 X Y). Qed.
Lemma dot_comm u v : LinAlg.dot u v = LinAlg.dot v u. Proof. unfold LinAlg.dot. ring. Qed.
Lemma hat_mv c m x v : 0 <= c <= 200 -> rg 390 m -> vtr c m (v3l x) v -> vtr (3 * (1001 / 1000 * (8 + c) + 8)) m (v3l (g_mv A (g_hat A k) x)) (cross k0 v).
Proof.
  intros C R1 X. destruct hat_rows as ((H0 & H1 & H2) & _). assert (NV : norm v <= m) by (destruct X as (_ & _ & _ & _ & _ & _ & _ & W); exact W).
  pose proof (dot_tr 8 c 1 m _ _ _ _ ltac:(lra) ltac:(lra) rg1 R1 H0 X) as T0. pose proof (dot_tr 8 c 1 m _ _ _ _ ltac:(lra) ltac:(lra) rg1 R1 H1 X) as T1. pose proof (dot_tr 8 c 1 m _ _ _ _ ltac:(lra) ltac:(lra) rg1 R1 H2 X) as T2.
  rewrite Rmult_1_l in T0, T1, T2. unfold v3l, g_mv, v3map. cbn [w0 w1 w2].
  apply vtr_entries; [| | |apply cross_le, NV]; unfold cross; cbn [vx vy vz].
  - replace (vy k0 * vz v - vz k0 * vy v) with (LinAlg.dot (V3 0 (- vz k0) (vy k0)) v) by (unfold LinAlg.dot; cbn [vx vy vz]; ring). exact T0.
  - replace (vz k0 * vx v - vx k0 * vz v) with (LinAlg.dot (V3 (vz k0) 0 (- vx k0)) v) by (unfold LinAlg.dot; cbn [vx vy vz]; ring). exact T1.
  - replace (vx k0 * vy v - vy k0 * vx v) with (LinAlg.dot (V3 (- vy k0) (vx k0) 0) v) by (unfold LinAlg.dot; cbn [vx vy vz]; ring). exact T2.
Qed.
Lemma hat_vm c m x v : 0 <= c <= 200 -> rg 390 m -> vtr c m (v3l x) v -> vtr (3 * (1001 / 1000 * (c + 8) + 8)) m (v3l (g_vm A x (g_hat A k))) (vneg (cross k0 v)).
Proof.
  intros C R1 X. destruct hat_rows as (_ & (H0 & H1 & H2)). assert (NV : norm v <= m) by (destruct X as (_ & _ & _ & _ & _ & _ & _ & W); exact W).
  pose proof (dot_tr c 8 m 1 _ _ _ _ ltac:(lra) ltac:(lra) R1 rg1 X H0) as T0. pose proof (dot_tr c 8 m 1 _ _ _ _ ltac:(lra) ltac:(lra) R1 rg1 X H1) as T1. pose proof (dot_tr c 8 m 1 _ _ _ _ ltac:(lra) ltac:(lra) R1 rg1 X H2) as T2.
  rewrite Rmult_1_r in T0, T1, T2. unfold v3l, g_vm, v3map at 1 2 3. cbn [w0 w1 w2].
  apply vtr_entries; unfold vneg, cross; cbn [vx vy vz].
  - replace (- (vy k0 * vz v - vz k0 * vy v)) with (LinAlg.dot v (V3 0 (vz k0) (- vy k0))) by (unfold LinAlg.dot; cbn [vx vy vz]; ring). exact T0.
  - replace (- (vz k0 * vx v - vx k0 * vz v)) with (LinAlg.dot v (V3 (- vz k0) 0 (vx k0))) by (unfold LinAlg.dot; cbn [vx vy vz]; ring). exact T1.
  - replace (- (vx k0 * vy v - vy k0 * vx v)) with (LinAlg.dot v (V3 (vy k0) (- vx k0) 0)) by (unfold LinAlg.dot; cbn [vx vy vz]; ring). exact T2.
  - pose proof (cross_le v m NV) as H. eapply Rle_trans; [|exact H]. unfold cross. cbn [vx vy vz]. apply norm_sub. lra.
Qed.
Lemma a_ok : tr 172 (M * N) s_a r_a.
Proof.
  pose proof (hat_vm 0 M p p0 ltac:(lra) HM' Hp) as H1. apply (vtr_weak _ 49) in H1; [|lra|apply Rlt_le, (rg_pos 190), HM].
  pose proof (dot_tr 49 0 M N _ _ _ _ ltac:(lra) ltac:(lra) HM' HN' H1 Hq) as T.
  apply (tr_weak _ 172) in T; [|lra|pose proof Kpos; lra]. unfold s_a, r_a. replace (LinAlg.dot p0 (cross k0 q0)) with (LinAlg.dot (vneg (cross k0 p0)) q0); [exact T|].
  unfold LinAlg.dot, vneg, cross. cbn [vx vy vz]. ring.
Qed.
Lemma b_ok : tr 613 (M * N) s_b r_b.
Proof.
  apply tr_opp. pose proof (hat_mv 0 N q q0 ltac:(lra) HN' Hq) as H1. apply (vtr_weak _ 49) in H1; [|lra|apply Rlt_le, (rg_pos 190), HN].
  pose proof (hat_mv 49 N _ _ ltac:(lra) HN' H1) as H2. apply (vtr_weak _ 196) in H2; [|lra|apply Rlt_le, (rg_pos 190), HN].
  pose proof (dot_tr 0 196 M N _ _ _ _ ltac:(lra) ltac:(lra) HM' HN' Hp H2) as T. apply (tr_weak _ 613) in T; [|lra|pose proof Kpos; lra]. exact T.
Qed.
Lemma e_ok : tr 321 (2 * (M * N)) s_e (LinAlg.dot p0 q0 - r_b).
Proof.
  pose proof (dot_tr 0 0 M N _ _ _ _ ltac:(lra) ltac:(lra) HM' HN' Hp Hq) as T. pose proof Kpos as KP. apply (tr_weak _ 25) in T; [|lra|lra].
  assert (R2 : rg 900 (2 * (M * N))) by (apply (rg_weak 383); [lia|]; apply (rg_scale 380); [exact Krg|lra]).
  pose proof (tr_sub 25 613 (M * N) _ _ _ _ ltac:(apply cb_small; lra) ltac:(apply cb_small; lra) R2 T b_ok) as S. apply (tr_weak _ 321) in S; [exact S|lra|lra].
Qed.
(** the length of the coefficients *)
Definition r_n : R := sqrt (bval s_a * bval s_a + bval s_b * bval s_b).
Lemma small_K : 0 < uK /\ bpow radix2 (-530) <= 1 / 1000 * uK /\ ee <= 1 / 1000 * uK /\ ee <= 1 / 1000000.
Proof.
  pose proof Kpos as KP. pose proof uu_pos as U. split; [apply Rmult_lt_0_compat; lra|]. split; [|split].
  - destruct Krg as [K1 _]. apply Rle_trans with (1 / 1000 * (uu * bpow radix2 (-380))).
    + unfold uu. rewrite <- bpow_plus. replace (-530)%Z with (-97 + (-53 + -380))%Z by lia. rewrite bpow_plus. apply Rmult_le_compat_r; [apply bpow_ge_0|]. apply Rle_trans with (bpow radix2 (-10)); [apply bpow_le; lia|]. cbn. lra.
    + apply Rmult_le_compat_l; [lra|]. apply Rmult_le_compat_l; [lra|exact K1].
  - apply (ee_rg 380); [lia|exact Krg].
  - pose proof ee_le_uu. pose proof uu_small. lra.
Qed.
Lemma n_bounds : 0 <= r_n <= 201 / 100 * (M * N) /\ bfin s_n /\ 0 <= bval s_n /\ Rabs (bval s_n - r_n) <= 6 * uu * r_n + bpow radix2 (-530).
Proof.
  pose proof a_ok as TA. pose proof b_ok as TB. pose proof Kpos as KP.
  pose proof (tr_size 172 _ _ _ ltac:(apply cb_small; lra) TA) as SA. pose proof (tr_size 613 _ _ _ ltac:(apply cb_small; lra) TB) as SB.
  assert (UP : forall x, bfin x -> Rabs (bval x) <= 2001 / 2000 * (M * N) -> upto 400 x).
  { intros x F B. split; [exact F|]. destruct Krg as [_ K2]. apply Rle_trans with (bpow radix2 381); [|apply bpow_le; lia]. replace 381%Z with (1 + 380)%Z by lia. rewrite bpow_plus. change (bpow radix2 1) with 2. lra. }
  split; [|exact (len2 bdot s_a s_b HD (UP _ (proj1 TA) SA) (UP _ (proj1 TB) SB))].
  split; [apply sqrt_pos|]. unfold r_n. replace (201 / 100 * (M * N)) with (sqrt (201 / 100 * (M * N) * (201 / 100 * (M * N)))) by (apply sqrt_square; lra). apply sqrt_le_1_alt.
  pose proof (Rsqr_abs (bval s_a)) as Q1. pose proof (Rsqr_abs (bval s_b)) as Q2. unfold Rsqr in *. rewrite Q1, Q2. pose proof (Rabs_pos (bval s_a)). pose proof (Rabs_pos (bval s_b)). nra.
Qed.
Lemma quot_ok : bfin s_d -> Rabs (bval s_d) <= 1 -> Rabs (r_n * bval s_d - bval s_c) <= 17 * uK /\ Rabs (bval s_c - r_c) <= 647 * uK.
Proof.
  intros F B. destruct n_bounds as ((N1 & N2) & Fn & Pn & En). destruct (div_fin' s_c s_n F Fn) as (Fc & Nz & V). fold s_d in V.
  destruct small_K as (KP & K1 & K2 & K3). pose proof Kpos as K0. pose proof uu_pos as U. pose proof uu_small as US.
  assert (NP : 0 < bval s_n) by lra.
  set (n := bval s_n) in *. set (c := bval s_c) in *. set (x := bval s_d) in *.
  pose proof (rnd_err (c / n)) as E1. rewrite <- V in E1.
  assert (Q : Rabs (c / n) <= 101 / 100).
  { pose proof (Rabs_pos (c / n)) as P0.
    assert (uu * Rabs (c / n) <= 1 / 1000000 * Rabs (c / n)) by (apply Rmult_le_compat_r; lra).
    assert (Rabs (c / n) <= Rabs x + Rabs (x - c / n)) by (replace (c / n) with (x + - (x - c / n)) at 1 by ring; eapply Rle_trans; [apply Rabs_triang|]; rewrite Rabs_Ropp; lra). lra. }
  assert (CN : c = c / n * n) by (field; lra).
  assert (SN : n <= 202 / 100 * (M * N)).
  { apply Rabs_le_inv in En. assert (uu * r_n <= 1 / 1000000 * r_n) by (apply Rmult_le_compat_r; lra). assert (uK <= 1 / 1000000 * (M * N)) by (apply Rmult_le_compat_r; lra). lra. }
  split.
  - replace (r_n * x - c) with (r_n * (x - c / n) + - (c / n * (n - r_n))) by (field; lra).
    eapply Rle_trans; [apply Rabs_triang|]. rewrite Rabs_Ropp, !Rabs_mult, (Rabs_right r_n) by lra.
    assert (T1 : r_n * Rabs (x - c / n) <= r_n * (102 / 100 * uu)).
    { apply Rmult_le_compat_l; [lra|]. assert (uu * Rabs (c / n) <= uu * (101 / 100)) by (apply Rmult_le_compat_l; lra). assert (ee <= 1 / 100 * uu). { unfold ee, uu. replace (-1075)%Z with (-1022 + -53)%Z by lia. rewrite bpow_plus. apply Rmult_le_compat_r; [apply bpow_ge_0|]. apply Rle_trans with (bpow radix2 (-10)); [apply bpow_le; lia|cbn; lra]. } lra. }
    assert (T2 : Rabs (c / n) * Rabs (n - r_n) <= 101 / 100 * (6 * uu * r_n + bpow radix2 (-530))) by (apply Rmult_le_compat; auto using Rabs_pos).
    assert (T3 : uu * r_n <= uu * (201 / 100 * (M * N))) by (apply Rmult_le_compat_l; lra). lra.
  - pose proof e_ok as (Fe & Ee & _). destruct (sub_fin d s_e Fc) as [_ _]. pose proof (sub_val d s_e Fc) as VC. fold s_c in VC. fold c in VC.
    pose proof (rnd_err (bval d - bval s_e)) as E2. rewrite <- VC in E2.
    assert (C2 : Rabs c <= 205 / 100 * (M * N)).
    { pose proof (Rmult_le_compat_r n _ _ Pn Q) as PQ. replace (Rabs (c / n) * n) with (Rabs c) in PQ; [lra|]. rewrite CN at 1. rewrite Rabs_mult, (Rabs_right n) by lra. reflexivity. }
    assert (E3 : Rabs (bval d - bval s_e) <= 207 / 100 * (M * N)).
    { pose proof (Rabs_pos (bval d - bval s_e)). assert (uu * Rabs (bval d - bval s_e) <= 1 / 1000000 * Rabs (bval d - bval s_e)) by (apply Rmult_le_compat_r; lra).
      assert (Rabs (bval d - bval s_e) <= Rabs c + Rabs (c - (bval d - bval s_e))) by (replace (bval d - bval s_e) with (c + - (c - (bval d - bval s_e))) at 1 by ring; eapply Rle_trans; [apply Rabs_triang|]; rewrite Rabs_Ropp; lra).
      assert (uK <= 1 / 1000000 * (M * N)) by (apply Rmult_le_compat_r; lra). lra. }
    assert (E4 : uu * Rabs (bval d - bval s_e) <= uu * (207 / 100 * (M * N))) by (apply Rmult_le_compat_l; lra).
    unfold r_c. replace (c - (bval d - (LinAlg.dot p0 q0 - r_b))) with ((c - (bval d - bval s_e)) + - (bval s_e - (LinAlg.dot p0 q0 - r_b))) by ring.
    eapply Rle_trans; [apply Rabs_triang|]. rewrite Rabs_Ropp. lra.
Qed.
(** the residual *)
Lemma disp_eq t : displacement p0 q0 k0 t - bval d = r_a * sin t + r_b * cos t - r_c.
Proof.
  assert (B : r_b = LinAlg.dot p0 q0 - LinAlg.dot k0 q0 * LinAlg.dot k0 p0).
  { unfold r_b. replace (- LinAlg.dot p0 (cross k0 (cross k0 q0))) with (LinAlg.dot p0 q0 * norm2 k0 - LinAlg.dot k0 q0 * LinAlg.dot k0 p0) by (unfold norm2, LinAlg.dot, cross; cbn [vx vy vz]; ring). unfold unit3 in HK. replace (norm2 k0) with 1 by (symmetry; exact HK). ring. }
  unfold displacement, r_c. rewrite B. unfold r_a, rotate, LinAlg.dot. cbn [vx vy vz vadd vscale cross]. ring.
Qed.
Definition s_phi : b64 := m_atan2 L s_b s_a.
Definition s_psi : b64 := f s_d.
Definition s_t1 : b64 := b_add (Bopp s_phi) s_psi.
Definition s_t2 : b64 := b_add (b_sub (Bopp s_phi) s_psi) b_pi.
Context (HL : libm_angle_ok L (bpow radix2 (-50))) (HF : libm_asin_ok f (bpow radix2 (-50))).
Lemma phi_ok : bfin s_phi -> exists tau, bval s_a = r_n * cos tau /\ bval s_b = r_n * sin tau /\ (0 < r_n -> - PI <= tau <= PI /\ Rabs (bval s_phi - tau) <= 8 * uu).
Proof.
  intros F. destruct (Rtotal_order 0 r_n) as [P | [Z | Z]].
  - assert (P2 : 0 < bval s_a * bval s_a + bval s_b * bval s_b). { apply Rnot_le_lt. intros C. unfold r_n in P. rewrite sqrt_neg_0 in P by exact C. lra. }
    destruct (HL s_b s_a (proj1 b_ok) (proj1 a_ok) P2) as (_ & t & T1 & T2 & T3 & T4). rewrite eight in T2. exists t. split; [exact T3|]. split; [exact T4|]. intros _. split; [exact T1|exact T2].
  - exists 0. assert (Z2 : bval s_a * bval s_a + bval s_b * bval s_b = 0). { apply sqrt_eq_0; [|exact (eq_sym Z)]. pose proof (Rle_0_sqr (bval s_a)); pose proof (Rle_0_sqr (bval s_b)); unfold Rsqr in *; lra. }
    rewrite <- Z, !Rmult_0_l. split; [|split; [|lra]]; apply Rsqr_0_uniq; unfold Rsqr; pose proof (Rle_0_sqr (bval s_a)); pose proof (Rle_0_sqr (bval s_b)); unfold Rsqr in *; lra.
  - exfalso. pose proof (sqrt_pos (bval s_a * bval s_a + bval s_b * bval s_b)). fold r_n in H. lra.
Qed.
Lemma resid t : bfin s_d -> Rabs (bval s_d) <= 1 -> (exists tau, bval s_a = r_n * cos tau /\ bval s_b = r_n * sin tau /\ Rabs (r_n * sin (t + tau) - r_n * bval s_d) <= 70 * uK) ->
  Rabs (displacement p0 q0 k0 t - bval d) <= bpow radix2 (-42) * (M * N).
Proof.
  intros F B (tau & TA & TB & TR). destruct (quot_ok F B) as (Q1 & Q2). destruct a_ok as (_ & EA & _). destruct b_ok as (_ & EB & _). pose proof Kpos as KP. destruct small_K as (UK & _).
  assert (P42 : bpow radix2 (-42) = 2048 * uu) by (unfold uu; replace (-42)%Z with (11 + -53)%Z by lia; rewrite bpow_plus; f_equal). rewrite P42.
  rewrite disp_eq. replace (r_a * sin t + r_b * cos t - r_c) with (- ((bval s_a - r_a) * sin t) + - ((bval s_b - r_b) * cos t) + (r_n * sin (t + tau) - r_n * bval s_d) + (r_n * bval s_d - bval s_c) + (bval s_c - r_c))
    by (rewrite sin_plus; rewrite TA at 1; rewrite TB at 1; ring).
  assert (X1 : Rabs (- ((bval s_a - r_a) * sin t)) <= 172 * uK). { rewrite Rabs_Ropp, Rabs_mult. assert (Rabs (sin t) <= 1) by (pose proof (SIN_bound t); apply Rabs_le; lra). pose proof (Rabs_pos (bval s_a - r_a)). pose proof (Rabs_pos (sin t)). nra. }
  assert (X2 : Rabs (- ((bval s_b - r_b) * cos t)) <= 613 * uK). { rewrite Rabs_Ropp, Rabs_mult. assert (Rabs (cos t) <= 1) by (pose proof (COS_bound t); apply Rabs_le; lra). pose proof (Rabs_pos (bval s_b - r_b)). pose proof (Rabs_pos (cos t)). nra. }
  eapply Rle_trans; [apply Rabs_triang|]. eapply Rle_trans; [apply Rplus_le_compat_r, Rabs_triang|]. eapply Rle_trans; [apply Rplus_le_compat_r, Rplus_le_compat_r, Rabs_triang|]. eapply Rle_trans; [apply Rplus_le_compat_r, Rplus_le_compat_r, Rplus_le_compat_r, Rabs_triang|]. lra.
Qed.
Lemma psi_ok : bfin s_psi -> bfin s_d /\ Rabs (bval s_d) <= 1 /\ Rabs (bval s_psi - asin (bval s_d)) <= 8 * uu /\ Rabs (bval s_psi) <= 16 / 10.
Proof.
  intros F. destruct HF as [H1 H2]. destruct (H2 _ F) as [Fd' B]. destruct (H1 _ Fd' B) as [_ E]. rewrite eight in E. fold s_psi in E. split; [exact Fd'|]. split; [exact B|]. split; [exact E|].
  pose proof (asin_bound (bval s_d)). pose proof pi_hi. pose proof uu_small. apply Rabs_le_inv in E. apply Rabs_le. lra.
Qed.
Lemma t1_near tau : bfin s_t1 -> - PI <= tau <= PI -> Rabs (bval s_phi - tau) <= 8 * uu -> Rabs (bval s_t1 - (- tau + asin (bval s_d))) <= 23 * uu.
Proof.
  intros F T E. destruct (add_fin _ _ F) as [F1 F2]. destruct (psi_ok F2) as (_ & _ & E2 & B2). pose proof (add_val _ _ F) as V. fold s_t1 in V. rewrite opp_val in V.
  pose proof (rnd_err (- bval s_phi + bval s_psi)) as R1. rewrite <- V in R1. pose proof pi_hi. pose proof uu_small. pose proof uu_pos. pose proof ee_small'.
  assert (BM : Rabs (- bval s_phi + bval s_psi) <= 5) by (apply Rabs_le_inv in E, B2; apply Rabs_le; lra).
  assert (uu * Rabs (- bval s_phi + bval s_psi) <= uu * 5) by (apply Rmult_le_compat_l; lra).
  apply Rabs_le_inv in R1, E, E2. apply Rabs_le. lra.
Qed.
Lemma t2_near tau : bfin s_t2 -> - PI <= tau <= PI -> Rabs (bval s_phi - tau) <= 8 * uu -> Rabs (bval s_t2 - (- tau - asin (bval s_d) + PI)) <= 34 * uu.
Proof.
  intros F T E. destruct (add_fin _ _ F) as [F1 _]. destruct (sub_fin _ _ F1) as [_ F2]. destruct (psi_ok F2) as (_ & _ & E2 & B2). pose proof (add_val _ _ F) as V. fold s_t2 in V. pose proof (sub_val _ _ F1) as V1. rewrite opp_val in V1.
  set (h := b_sub (Bopp s_phi) s_psi) in *. pose proof (rnd_err (- bval s_phi - bval s_psi)) as R1. rewrite <- V1 in R1. pose proof pi_hi. pose proof uu_small. pose proof uu_pos. pose proof ee_small'. pose proof b_pi_err as BP.
  assert (BM : Rabs (- bval s_phi - bval s_psi) <= 5) by (apply Rabs_le_inv in E, B2; apply Rabs_le; lra).
  assert (uu * Rabs (- bval s_phi - bval s_psi) <= uu * 5) by (apply Rmult_le_compat_l; lra).
  pose proof (rnd_err (bval h + bval b_pi)) as R2. rewrite <- V in R2.
  assert (BM2 : Rabs (bval h + bval b_pi) <= 9) by (apply Rabs_le_inv in R1, BM; apply Rabs_le; lra).
  assert (uu * Rabs (bval h + bval b_pi) <= uu * 9) by (apply Rmult_le_compat_l; lra).
  apply Rabs_le_inv in R1, R2, E, E2. apply Rabs_le. lra.
Qed.
Lemma scaled_sin t y x : sin y = x -> Rabs (t - y) <= 34 * uu -> 0 < r_n -> Rabs (r_n * sin t - r_n * x) <= 70 * uK.
Proof.
  intros <- E P. destruct n_bounds as ((_ & N2) & _). rewrite <- Rmult_minus_distr_l, Rabs_mult, (Rabs_right r_n) by lra.
  pose proof (sin_lip t y) as SL. pose proof uu_pos as U. pose proof Kpos as KP. pose proof (Rabs_pos (sin t - sin y)).
  assert (r_n * Rabs (sin t - sin y) <= 201 / 100 * (M * N) * (34 * uu)) by (apply Rmult_le_compat; lra). pose proof (Rmult_lt_0_compat _ _ U KP). lra.
Qed.
Lemma t1_resid : bfin s_t1 -> Rabs (displacement p0 q0 k0 (bval s_t1) - bval d) <= bpow radix2 (-42) * (M * N).
Proof.
  intros F. destruct (add_fin _ _ F) as [F1 F2]. destruct (psi_ok F2) as (Fx & Bx & _). apply resid; [exact Fx|exact Bx|].
  apply opp_fin in F1. destruct (phi_ok F1) as (tau & TA & TB & TR). exists tau. split; [exact TA|]. split; [exact TB|].
  destruct n_bounds as ((N1 & _) & _). destruct small_K as (UK & _). destruct N1 as [N1 | N1]; [|rewrite <- N1, !Rmult_0_l, Rminus_0_r, Rabs_R0; lra].
  destruct (TR N1) as [T1 T2]. pose proof uu_pos. apply Rabs_le_inv in Bx. apply (scaled_sin _ (asin (bval s_d))); [apply sin_asin; lra| |exact N1].
  pose proof (t1_near tau F T1 T2) as E. replace (bval s_t1 + tau - asin (bval s_d)) with (bval s_t1 - (- tau + asin (bval s_d))) by ring. lra.
Qed.
Lemma t2_resid : bfin s_t2 -> Rabs (displacement p0 q0 k0 (bval s_t2) - bval d) <= bpow radix2 (-42) * (M * N).
Proof.
  intros F. destruct (add_fin _ _ F) as [F0 _]. destruct (sub_fin _ _ F0) as [F1 F2]. destruct (psi_ok F2) as (Fx & Bx & _). apply resid; [exact Fx|exact Bx|].
  apply opp_fin in F1. destruct (phi_ok F1) as (tau & TA & TB & TR). exists tau. split; [exact TA|]. split; [exact TB|].
  destruct n_bounds as ((N1 & _) & _). destruct small_K as (UK & _). destruct N1 as [N1 | N1]; [|rewrite <- N1, !Rmult_0_l, Rminus_0_r, Rabs_R0; lra].
  destruct (TR N1) as [T1 T2]. apply Rabs_le_inv in Bx. apply (scaled_sin _ (PI - asin (bval s_d))); [rewrite sin_PI_x; apply sin_asin; lra| |exact N1].
  pose proof (t2_near tau F T1 T2) as E. replace (bval s_t2 + tau - (PI - asin (bval s_d))) with (bval s_t2 - (- tau - asin (bval s_d) + PI)) by ring. exact E.
Qed.
Lemma sub4_list : g_subproblem4 A f p q k d = if b_lt (b_lit 1 1) s_d then [] else [s_t1; s_t2].
Proof. reflexivity. Qed.
(** completeness *)
Lemma disp_le s : Rabs (displacement p0 q0 k0 s) <= M * N.
Proof.
  unfold displacement. rewrite <- (rot_rotate k0 s q0 HK). eapply Rle_trans; [apply abs_dot_le|]. rewrite SO3_norm by (apply rot_SO3; exact HK).
  destruct Hp as (_ & _ & _ & _ & _ & _ & _ & W1). destruct Hq as (_ & _ & _ & _ & _ & _ & _ & W2). apply Rmult_le_compat; auto using norm_nonneg.
Qed.
Lemma rate_eq t : turn_rate p0 q0 k0 t = r_a * cos t - r_b * sin t.
Proof. unfold turn_rate, r_a, r_b, rotate, LinAlg.dot. cbn [vx vy vz vadd vscale cross]. ring. Qed.
Section Complete.
Context (s kap : R) (Hs : displacement p0 q0 k0 s = bval d) (Hk1 : bpow radix2 (-20) * (M * N) <= kap) (Hk2 : kap <= Rabs (turn_rate p0 q0 k0 s)).
Lemma c_fin : bfin s_c /\ Rabs (bval s_c - r_c) <= 647 * uK.
Proof.
  destruct e_ok as (Fe & Ee & Be). pose proof (disp_le s) as DB. rewrite Hs in DB. pose proof Kpos as KP. pose proof uu_small as US. pose proof uu_pos as U. destruct small_K as (UK & _ & EK & _).
  assert (uK <= 1 / 1000000 * (M * N)) by (apply Rmult_le_compat_r; lra).
  assert (B : Rabs (bval d - bval s_e) <= 4 * (M * N)) by (apply Rabs_le_inv in Ee, Be, DB; apply Rabs_le; lra).
  destruct (sub_range d s_e Fd Fe) as [F V]. { apply (rnd_room _ 382); [lia|]. eapply Rle_trans; [exact B|]. replace 382%Z with (2 + 380)%Z by lia. rewrite bpow_plus. destruct Krg as [_ K2]. change (bpow radix2 2) with 4. lra. }
  split; [exact F|]. fold s_c in V. pose proof (rnd_err (bval d - bval s_e)) as E. rewrite <- V in E. assert (uu * Rabs (bval d - bval s_e) <= uu * (4 * (M * N))) by (apply Rmult_le_compat_l; lra).
  unfold r_c. apply Rabs_le_inv in E, Ee. apply Rabs_le. lra.
Qed.
Lemma solved : exists tau, bfin s_phi /\ - PI <= tau <= PI /\ Rabs (bval s_phi - tau) <= 8 * uu /\ 0 < r_n /\
  99 / 100 * kap <= r_n * Rabs (cos (s + tau)) /\ Rabs (r_n * sin (s + tau) - bval s_c) <= 1432 * uK.
Proof.
  destruct a_ok as (Fa & EA & _). destruct b_ok as (Fb & EB & _). pose proof Kpos as KP. destruct small_K as (UK & _). destruct c_fin as (_ & EC).
  assert (KU : 785 * uK <= 1 / 100 * kap). { assert (uu = bpow radix2 (-33) * bpow radix2 (-20)) by (unfold uu; rewrite <- bpow_plus; reflexivity). assert (bpow radix2 (-33) <= 1 / 100000) by (cbn; lra). pose proof (Rmult_lt_0_compat _ _ (bpow_gt_0 radix2 (-20)) KP). rewrite H. replace (785 * (bpow radix2 (-33) * bpow radix2 (-20) * (M * N))) with (785 * bpow radix2 (-33) * (bpow radix2 (-20) * (M * N))) by ring. apply Rle_trans with (1 / 100 * (bpow radix2 (-20) * (M * N))); [apply Rmult_le_compat_r; lra|lra]. }
  assert (K0 : 0 < kap) by (pose proof (Rmult_lt_0_compat _ _ (bpow_gt_0 radix2 (-20)) KP); lra).
  assert (MIX : forall x y, Rabs x <= 1 -> Rabs y <= 1 -> Rabs ((bval s_a - r_a) * x + (bval s_b - r_b) * y) <= 785 * uK).
  { intros x y X Y. eapply Rle_trans; [apply Rabs_triang|]. rewrite !Rabs_mult. pose proof (Rabs_pos x). pose proof (Rabs_pos y).
    assert (Rabs (bval s_a - r_a) * Rabs x <= 172 * uK * 1) by (apply Rmult_le_compat; auto using Rabs_pos). assert (Rabs (bval s_b - r_b) * Rabs y <= 613 * uK * 1) by (apply Rmult_le_compat; auto using Rabs_pos). lra. }
  assert (S1 : Rabs (sin s) <= 1) by (pose proof (SIN_bound s); apply Rabs_le; lra). assert (C1 : Rabs (cos s) <= 1) by (pose proof (COS_bound s); apply Rabs_le; lra).
  pose proof (MIX (sin s) (cos s) S1 C1) as X1. assert (S2 : Rabs (- sin s) <= 1) by (rewrite Rabs_Ropp; exact S1). pose proof (MIX (cos s) (- sin s) C1 S2) as X2.
  assert (RP : 0 < r_n).
  { destruct n_bounds as ((N1 & _) & _). destruct N1 as [N1 | N1]; [exact N1|exfalso]. assert (Z2 : bval s_a * bval s_a + bval s_b * bval s_b = 0) by (apply sqrt_eq_0; [pose proof (Rle_0_sqr (bval s_a)); pose proof (Rle_0_sqr (bval s_b)); unfold Rsqr in *; lra|exact (eq_sym N1)]).
    assert (ZA : bval s_a = 0) by (apply Rsqr_0_uniq; unfold Rsqr; pose proof (Rle_0_sqr (bval s_a)); pose proof (Rle_0_sqr (bval s_b)); unfold Rsqr in *; lra). assert (ZB : bval s_b = 0) by (apply Rsqr_0_uniq; unfold Rsqr; pose proof (Rle_0_sqr (bval s_a)); pose proof (Rle_0_sqr (bval s_b)); unfold Rsqr in *; lra).
    rewrite ZA, ZB in X2. rewrite rate_eq in Hk2. replace ((0 - r_a) * cos s + (0 - r_b) * - sin s) with (- (r_a * cos s - r_b * sin s)) in X2 by ring. rewrite Rabs_Ropp in X2. lra. }
  assert (P2 : 0 < bval s_a * bval s_a + bval s_b * bval s_b). { apply Rnot_le_lt. intros C. unfold r_n in RP. rewrite sqrt_neg_0 in RP by exact C. lra. }
  destruct (HL s_b s_a Fb Fa P2) as (Fp & tau & T1 & T2 & TA & TB). rewrite eight in T2. fold r_n in TA, TB. exists tau. split; [exact Fp|]. split; [exact T1|]. split; [exact T2|]. split; [exact RP|]. split.
  - rewrite <- (Rabs_right r_n) at 1 by lra. rewrite <- Rabs_mult.
    assert (E : turn_rate p0 q0 k0 s = r_n * cos (s + tau) - ((bval s_a - r_a) * cos s + (bval s_b - r_b) * - sin s)) by (rewrite rate_eq, cos_plus; rewrite TA at 1; rewrite TB at 1; ring).
    rewrite E in Hk2. pose proof (Rabs_triang (r_n * cos (s + tau)) (- ((bval s_a - r_a) * cos s + (bval s_b - r_b) * - sin s))) as TR. rewrite Rabs_Ropp in TR. unfold Rminus at 1 in Hk2. lra.
  - pose proof (disp_eq s) as DE. rewrite Hs in DE. replace (r_n * sin (s + tau) - bval s_c) with ((bval s_a - r_a) * sin s + (bval s_b - r_b) * cos s + - (bval s_c - r_c)) by (rewrite sin_plus; rewrite TA at 1; rewrite TB at 1; lra).
    eapply Rle_trans; [apply Rabs_triang|]. rewrite Rabs_Ropp. lra.
Qed.
Lemma x_ok tau : 0 < r_n -> 99 / 100 * kap <= r_n * Rabs (cos (s + tau)) -> Rabs (r_n * sin (s + tau) - bval s_c) <= 1432 * uK -> bfin s_d /\ Rabs (bval s_d) <= 1.
Proof.
  intros RP G E. destruct n_bounds as ((_ & N2) & Fn & Pn & En). pose proof Kpos as KP. destruct small_K as (UK & K1 & _). destruct c_fin as (Fc & _). pose proof uu_pos as U.
  set (sg := s + tau) in *.
  assert (G2 : 8000 * (uK * (M * N)) <= (r_n * Rabs (cos sg)) * (r_n * Rabs (cos sg))).
  { assert (P40 : bpow radix2 (-20) * bpow radix2 (-20) = 8192 * uu) by (unfold uu; rewrite <- bpow_plus; replace (-20 + -20)%Z with (13 + -53)%Z by lia; rewrite bpow_plus; f_equal).
    assert (B0 : 0 < bpow radix2 (-20) * (M * N)) by (apply Rmult_lt_0_compat; [apply bpow_gt_0|exact KP]).
    assert (B1 : 99 / 100 * (bpow radix2 (-20) * (M * N)) <= r_n * Rabs (cos sg)) by lra.
    apply Rle_trans with (99 / 100 * (bpow radix2 (-20) * (M * N)) * (99 / 100 * (bpow radix2 (-20) * (M * N)))); [|apply Rmult_le_compat; lra].
    replace (99 / 100 * (bpow radix2 (-20) * (M * N)) * (99 / 100 * (bpow radix2 (-20) * (M * N)))) with (9801 / 10000 * (bpow radix2 (-20) * bpow radix2 (-20)) * (M * N * (M * N))) by field. rewrite P40.
    pose proof (Rmult_lt_0_compat _ _ UK KP). lra. }
  assert (GAP : 1900 * uK <= r_n - r_n * Rabs (sin sg)).
  { apply Rnot_lt_le. intros C. assert (S1 : Rabs (sin sg) <= 1) by (pose proof (SIN_bound sg); apply Rabs_le; lra).
    pose proof (sin2_cos2 sg) as SC. unfold Rsqr in SC. assert (QS : Rabs (sin sg) * Rabs (sin sg) = sin sg * sin sg) by (rewrite <- Rabs_mult; apply Rabs_right, Rle_ge, Rle_0_sqr). assert (QC : Rabs (cos sg) * Rabs (cos sg) = cos sg * cos sg) by (rewrite <- Rabs_mult; apply Rabs_right, Rle_ge, Rle_0_sqr).
    assert (H1 : r_n * Rabs (cos sg) * (r_n * Rabs (cos sg)) = r_n * (1 + Rabs (sin sg)) * (r_n - r_n * Rabs (sin sg))) by (replace (r_n * Rabs (cos sg) * (r_n * Rabs (cos sg))) with (r_n * r_n * (Rabs (cos sg) * Rabs (cos sg))) by ring; rewrite QC; replace (cos sg * cos sg) with (1 - Rabs (sin sg) * Rabs (sin sg)) by lra; ring).
    pose proof (Rabs_pos (sin sg)) as S0. assert (D0 : 0 <= r_n - r_n * Rabs (sin sg)) by (assert (r_n * Rabs (sin sg) <= r_n * 1) by (apply Rmult_le_compat_l; lra); lra).
    assert (H2 : r_n * (1 + Rabs (sin sg)) <= 402 / 100 * (M * N)) by (assert (r_n * Rabs (sin sg) <= r_n * 1) by (apply Rmult_le_compat_l; lra); lra).
    assert (H3 : r_n * (1 + Rabs (sin sg)) * (r_n - r_n * Rabs (sin sg)) <= 402 / 100 * (M * N) * (1900 * uK)) by (apply Rmult_le_compat; [apply Rmult_le_pos; lra|lra|lra|lra]).
    rewrite <- H1 in H3. pose proof (Rmult_lt_0_compat _ _ UK KP). lra. }
  assert (UR : uu * r_n <= uu * (201 / 100 * (M * N))) by (apply Rmult_le_compat_l; lra).
  assert (CB : Rabs (bval s_c) <= bval s_n).
  { assert (A1 : Rabs (bval s_c) <= r_n * Rabs (sin sg) + 1432 * uK). { replace (bval s_c) with (r_n * sin sg + - (r_n * sin sg - bval s_c)) by ring. eapply Rle_trans; [apply Rabs_triang|]. rewrite Rabs_Ropp, Rabs_mult, (Rabs_right r_n) by lra. lra. }
    apply Rabs_le_inv in En. lra. }
  assert (NP : 0 < bval s_n). { apply Rabs_le_inv in En. assert (0 <= r_n * Rabs (sin sg)) by (apply Rmult_le_pos; [lra|apply Rabs_pos]). lra. }
  assert (QB : Rabs (bval s_c / bval s_n) <= 1). { unfold Rdiv. rewrite Rabs_mult, (Rabs_right (/ bval s_n)) by (apply Rle_ge, Rlt_le, Rinv_0_lt_compat; exact NP). apply (Rmult_le_reg_r (bval s_n)); [exact NP|]. rewrite Rmult_assoc, Rinv_l by lra. lra. }
  destruct (div_range s_c s_n Fc ltac:(lra)) as [F V]. { apply (rnd_room _ 0); [lia|]. exact QB. }
  split; [exact F|]. unfold s_d. rewrite V. exact (rnd_abs_le _ 0 ltac:(lia) QB).
Qed.
Lemma complete : exists t1 t2, g_subproblem4 A f p q k d = [t1; t2] /\ bfin t1 /\ bfin t2 /\
  (same_angle (bpow radix2 (-40) * (M * N) / kap) (bval t1) s \/ same_angle (bpow radix2 (-40) * (M * N) / kap) (bval t2) s).
Proof.
  destruct solved as (tau & Fp & T1 & T2 & RP & G & E). destruct (x_ok tau RP G E) as (Fx & Bx). destruct (quot_ok Fx Bx) as (Q1 & _).
  destruct HF as [HF1 _]. destruct (HF1 s_d Fx Bx) as [Fps _]. fold s_psi in Fps. destruct (psi_ok Fps) as (_ & _ & _ & BP).
  pose proof Kpos as KP. destruct small_K as (UK & _). destruct n_bounds as ((_ & N2) & _). pose proof uu_pos as U. pose proof pi_hi as PH. pose proof uu_small as US. pose proof pi_lo as PL.
  assert (FO : bfin (Bopp s_phi)) by (unfold bfin; rewrite is_finite_Bopp; exact Fp). assert (BPH : Rabs (bval s_phi) <= 4) by (apply Rabs_le_inv in T2; apply Rabs_le; lra).
  assert (F1 : bfin s_t1). { apply add_range; [exact FO|exact Fps|]. rewrite opp_val. apply (rnd_room _ 4); [lia|]. change (bpow radix2 4) with 16. apply Rabs_le_inv in BP, BPH. apply Rabs_le. lra. }
  assert (F2' : isv (b_sub (Bopp s_phi) s_psi) (rnd (bval (Bopp s_phi) - bval s_psi))). { apply sub_range; [exact FO|exact Fps|]. rewrite opp_val. apply (rnd_room _ 4); [lia|]. change (bpow radix2 4) with 16. apply Rabs_le_inv in BP, BPH. apply Rabs_le. lra. }
  assert (F2 : bfin s_t2). { destruct F2' as [F2 V2]. apply add_range; [exact F2|reflexivity|]. rewrite V2, opp_val. apply (rnd_room _ 4); [lia|]. change (bpow radix2 4) with 16. pose proof (rnd_err (- bval s_phi - bval s_psi)) as R1. pose proof b_pi_err. pose proof ee_le_uu.
    assert (B6 : Rabs (- bval s_phi - bval s_psi) <= 6) by (apply Rabs_le_inv in BP, BPH; apply Rabs_le; lra). assert (uu * Rabs (- bval s_phi - bval s_psi) <= uu * 6) by (apply Rmult_le_compat_l; lra). apply Rabs_le_inv in R1, B6. apply Rabs_le. lra. }
  exists s_t1, s_t2. split.
  { rewrite sub4_list. destruct (b_lt (b_lit 1 1) s_d) eqn:LT; [|reflexivity]. exfalso. apply (PropNorm.b_lt_val _ _ (proj1 PropElbow.one_val) Fx) in LT. rewrite (proj2 PropElbow.one_val) in LT. apply Rabs_le_inv in Bx. lra. }
  split; [exact F1|]. split; [exact F2|].
  pose proof (t1_near tau F1 T1 T2) as E1. pose proof (t2_near tau F2 T1 T2) as E2.
  set (sg := s + tau) in *. set (y := asin (bval s_d)) in *. assert (SY : sin y = bval s_d) by (apply sin_asin; apply Rabs_le_inv in Bx; lra).
  set (z := asin (sin sg)). pose proof (asin_bound (bval s_d)) as YB. fold y in YB. pose proof (asin_bound (sin sg)) as ZB. fold z in ZB.
  assert (SZ : sin z = sin sg) by (apply sin_asin, SIN_bound).
  assert (CZ : cos z = Rabs (cos sg)). { assert (C0 : 0 <= cos z) by (apply cos_ge_0; lra). rewrite <- (Rabs_right (cos z)) by lra. apply Rsqr_eq_abs_0. rewrite !cos2. unfold Rsqr at 1 2. rewrite SZ. reflexivity. }
  pose proof (asin_stable y z ltac:(lra) ltac:(lra)) as ST. rewrite SY, SZ, CZ in ST.
  assert (K0 : 0 < kap) by (pose proof (Rmult_lt_0_compat _ _ (bpow_gt_0 radix2 (-20)) KP); lra).
  assert (D1 : r_n * Rabs (bval s_d - sin sg) <= 1449 * uK).
  { rewrite <- (Rabs_right r_n) by lra. rewrite <- Rabs_mult. replace (r_n * (bval s_d - sin sg)) with ((r_n * bval s_d - bval s_c) + - (r_n * sin sg - bval s_c)) by ring. eapply Rle_trans; [apply Rabs_triang|]. rewrite Rabs_Ropp. lra. }
  assert (D2 : Rabs (y - z) * kap <= 5300 * uK).
  { pose proof (Rabs_pos (y - z)) as P0. assert (Rabs (y - z) * (99 / 100 * kap) <= Rabs (y - z) * (r_n * Rabs (cos sg))) by (apply Rmult_le_compat_l; lra).
    assert (r_n * (Rabs (y - z) * Rabs (cos sg)) <= r_n * (36 / 10 * Rabs (bval s_d - sin sg))) by (apply Rmult_le_compat_l; lra). lra. }
  assert (KB : kap <= 205 / 100 * (M * N)). { assert (Rabs (cos sg) <= 1) by (pose proof (COS_bound sg); apply Rabs_le; lra). assert (r_n * Rabs (cos sg) <= r_n * 1) by (apply Rmult_le_compat_l; lra). lra. }
  assert (D3 : Rabs (y - z) + 34 * uu <= bpow radix2 (-40) * (M * N) / kap).
  { apply (Rmult_le_reg_r kap); [exact K0|]. replace (bpow radix2 (-40) * (M * N) / kap * kap) with (bpow radix2 (-40) * (M * N)) by (field; lra). assert (P40 : bpow radix2 (-40) = 8192 * uu) by (unfold uu; replace (-40)%Z with (13 + -53)%Z by lia; rewrite bpow_plus; f_equal). rewrite P40.
    assert (uu * kap <= uu * (205 / 100 * (M * N))) by (apply Rmult_le_compat_l; lra). lra. }
  destruct (asin_sin_cases sg) as (j & [J | J]); fold z in J.
  - left. exists (- j)%Z. rewrite opp_IZR. replace (bval s_t1 - s - 2 * PI * - IZR j) with ((bval s_t1 - (- tau + y)) + (y - z)) by (unfold sg in J; lra). eapply Rle_trans; [apply Rabs_triang|]. lra.
  - right. exists (- j)%Z. rewrite opp_IZR. replace (bval s_t2 - s - 2 * PI * - IZR j) with ((bval s_t2 - (- tau - y + PI)) + - (y - z)) by (unfold sg in J; lra). eapply Rle_trans; [apply Rabs_triang|]. rewrite Rabs_Ropp. lra.
Qed.
End Complete.
(** out of reach *)
Section Reach.
Context (s : R) (HS : bpow radix2 (-20) * (M * N) <= Rabs (turn_rate p0 q0 k0 s)) (HB : Rabs (bval d) <= bpow radix2 400 * (M * N)).
Definition r_r : R := sqrt (r_a * r_a + r_b * r_b).
Lemma mix x y : Rabs x <= 1 -> Rabs y <= 1 -> Rabs ((bval s_a - r_a) * x + (bval s_b - r_b) * y) <= 785 * uK.
Proof.
  intros X Y. destruct a_ok as (_ & EA & _). destruct b_ok as (_ & EB & _). eapply Rle_trans; [apply Rabs_triang|]. rewrite !Rabs_mult. pose proof (Rabs_pos x). pose proof (Rabs_pos y).
  assert (Rabs (bval s_a - r_a) * Rabs x <= 172 * uK * 1) by (apply Rmult_le_compat; auto using Rabs_pos). assert (Rabs (bval s_b - r_b) * Rabs y <= 613 * uK * 1) by (apply Rmult_le_compat; auto using Rabs_pos). lra.
Qed.
Lemma sup_ab a b : 0 < sqrt (a * a + b * b) -> exists t, a * sin t + b * cos t = sqrt (a * a + b * b).
Proof.
  intros P. set (n := sqrt (a * a + b * b)) in *. assert (NN : n * n = a * a + b * b) by (apply sqrt_sqrt; pose proof (Rle_0_sqr a); pose proof (Rle_0_sqr b); unfold Rsqr in *; lra).
  destruct (unit_circle_angle (a / n) (b / n)) as (t & C & S0). { replace (a / n * (a / n) + b / n * (b / n)) with ((a * a + b * b) / (n * n)) by (field; lra). rewrite <- NN. field. lra. }
  exists t. rewrite C, S0. replace (a * (a / n) + b * (b / n)) with ((a * a + b * b) / n) by (field; lra). rewrite <- NN. field. lra.
Qed.
Lemma below_ab a b t : Rabs (a * sin t + b * cos t) <= sqrt (a * a + b * b).
Proof.
  rewrite <- sqrt_Rsqr_abs. apply sqrt_le_1_alt. unfold Rsqr. pose proof (sin2_cos2 t) as SC. unfold Rsqr in SC. pose proof (Rle_0_sqr (a * cos t - b * sin t)) as Q. unfold Rsqr in Q.
  replace (a * a + b * b) with ((a * a + b * b) * (sin t * sin t + cos t * cos t)) by (rewrite SC; ring). lra.
Qed.
Lemma n_near : 98 / 100 * (bpow radix2 (-20) * (M * N)) <= bval s_n /\ bval s_n <= r_r + 800 * uK /\ r_r <= 2 * (M * N).
Proof.
  destruct n_bounds as ((N1 & N2) & Fn & Pn & En). pose proof Kpos as KP. destruct small_K as (UK & K1 & _). pose proof uu_pos as U. pose proof uu_small as US.
  assert (PB : 0 < bpow radix2 (-20) * (M * N)) by (apply Rmult_lt_0_compat; [apply bpow_gt_0|exact KP]).
  assert (KU : 1000 * uK <= 1 / 1000 * (bpow radix2 (-20) * (M * N))). { assert (E : uu = bpow radix2 (-33) * bpow radix2 (-20)) by (unfold uu; rewrite <- bpow_plus; reflexivity). assert (bpow radix2 (-33) <= 1 / 1000000) by (cbn; lra). replace (1000 * uK) with (1000 * bpow radix2 (-33) * (bpow radix2 (-20) * (M * N))) by (rewrite E; ring). apply Rmult_le_compat_r; lra. }
  assert (S1 : Rabs (sin s) <= 1) by (pose proof (SIN_bound s); apply Rabs_le; lra). assert (C1 : Rabs (cos s) <= 1) by (pose proof (COS_bound s); apply Rabs_le; lra). assert (S2 : Rabs (- sin s) <= 1) by (rewrite Rabs_Ropp; exact S1).
  pose proof (mix (cos s) (- sin s) C1 S2) as X2.
  assert (UR : uu * r_n <= uu * (201 / 100 * (M * N))) by (apply Rmult_le_compat_l; lra).
  assert (RN : 99 / 100 * (bpow radix2 (-20) * (M * N)) <= r_n).
  { pose proof (below_ab (bval s_a) (bval s_b) (s + PI / 2)) as B. fold r_n in B. rewrite sin_plus, cos_plus, sin_PI2, cos_PI2 in B.
    replace (bval s_a * (sin s * 0 + cos s * 1) + bval s_b * (cos s * 0 - sin s * 1)) with (turn_rate p0 q0 k0 s + ((bval s_a - r_a) * cos s + (bval s_b - r_b) * - sin s)) in B by (rewrite rate_eq; ring).
    set (X := (bval s_a - r_a) * cos s + (bval s_b - r_b) * - sin s) in *. assert (TI : Rabs (turn_rate p0 q0 k0 s) <= Rabs (turn_rate p0 q0 k0 s + X) + Rabs X).
    { replace (turn_rate p0 q0 k0 s) with ((turn_rate p0 q0 k0 s + X) + - X) at 1 by ring. eapply Rle_trans; [apply Rabs_triang|]. rewrite Rabs_Ropp. lra. }
    lra. }
  split; [apply Rabs_le_inv in En; lra|]. split.
  - assert (RP : 0 < r_n) by lra. destruct (sup_ab _ _ RP) as (t & T). fold r_n in T. pose proof (below_ab r_a r_b t) as B. fold r_r in B.
    assert (St : Rabs (sin t) <= 1) by (pose proof (SIN_bound t); apply Rabs_le; lra). assert (Ct : Rabs (cos t) <= 1) by (pose proof (COS_bound t); apply Rabs_le; lra).
    pose proof (mix (sin t) (cos t) St Ct) as X. apply Rabs_le_inv in En, B, X. lra.
  - unfold r_r. replace (2 * (M * N)) with (sqrt (2 * (M * N) * (2 * (M * N)))) by (apply sqrt_square; lra). apply sqrt_le_1_alt. destruct a_ok as (_ & _ & BA). destruct b_ok as (_ & _ & BB).
    pose proof (Rsqr_abs r_a) as Q1. pose proof (Rsqr_abs r_b) as Q2. unfold Rsqr in *. rewrite Q1, Q2. pose proof (Rabs_pos r_a). pose proof (Rabs_pos r_b). nra.
Qed.
Lemma quot_val : bfin s_c /\ bval s_c = rnd (bval d - bval s_e) /\ bfin s_d /\ bval s_d = rnd (bval s_c / bval s_n) /\ 0 < bval s_n.
Proof.
  destruct e_ok as (Fe & Ee & Be). pose proof Kpos as KP. pose proof uu_small as US. pose proof uu_pos as U. destruct small_K as (UK & _ & EK & _). destruct n_near as (NN & _).
  assert (PB : 0 < bpow radix2 (-20) * (M * N)) by (apply Rmult_lt_0_compat; [apply bpow_gt_0|exact KP]).
  assert (UK1 : uK <= 1 / 1000000 * (M * N)) by (apply Rmult_le_compat_r; lra).
  assert (Q4 : 4 <= bpow radix2 400) by (change 4 with (bpow radix2 2); apply bpow_le; lia). assert (Q4K : 4 * (M * N) <= bpow radix2 400 * (M * N)) by (apply Rmult_le_compat_r; lra).
  assert (B : Rabs (bval d - bval s_e) <= 2 * (bpow radix2 400 * (M * N))) by (apply Rabs_le_inv in Ee, Be, HB; apply Rabs_le; lra).
  destruct (sub_range d s_e Fd Fe) as [F V]. { apply (rnd_room _ 781); [lia|]. eapply Rle_trans; [exact B|]. replace 781%Z with (1 + (400 + 380))%Z by lia. rewrite bpow_plus, bpow_plus. destruct Krg as [_ K2]. change (bpow radix2 1) with 2. apply Rmult_le_compat_l; [lra|]. apply Rmult_le_compat_l; [apply bpow_ge_0|exact K2]. }
  fold s_c in F, V. assert (NP : 0 < bval s_n) by lra.
  assert (CB : Rabs (bval s_c) <= 3 * (bpow radix2 400 * (M * N))). { pose proof (rnd_err (bval d - bval s_e)) as E. rewrite <- V in E. pose proof (Rabs_pos (bval d - bval s_e)). assert (uu * Rabs (bval d - bval s_e) <= 1 / 1000000 * Rabs (bval d - bval s_e)) by (apply Rmult_le_compat_r; lra).
    replace (bval s_c) with ((bval d - bval s_e) + (bval s_c - (bval d - bval s_e))) by ring. eapply Rle_trans; [apply Rabs_triang|]. lra. }
  assert (QB : Rabs (bval s_c / bval s_n) <= bpow radix2 430).
  { unfold Rdiv. rewrite Rabs_mult, (Rabs_right (/ bval s_n)) by (apply Rle_ge, Rlt_le, Rinv_0_lt_compat; exact NP). apply (Rmult_le_reg_r (bval s_n)); [exact NP|]. rewrite Rmult_assoc, Rinv_l, Rmult_1_r by lra. eapply Rle_trans; [exact CB|].
    apply Rle_trans with (bpow radix2 430 * (98 / 100 * (bpow radix2 (-20) * (M * N)))); [|apply Rmult_le_compat_l; [apply bpow_ge_0|exact NN]].
    replace (bpow radix2 430 * (98 / 100 * (bpow radix2 (-20) * (M * N)))) with (98 / 100 * (bpow radix2 430 * bpow radix2 (-20)) * (M * N)) by field. rewrite <- bpow_plus. replace (430 + -20)%Z with (10 + 400)%Z by lia. rewrite bpow_plus. change (bpow radix2 10) with 1024. lra. }
  destruct (div_range s_c s_n F ltac:(lra)) as [F2 V2]. { apply (rnd_room _ 430); [lia|exact QB]. }
  split; [exact F|]. split; [exact V|]. split; [exact F2|]. split; [exact V2|exact NP].
Qed.
Lemma above : (forall t, displacement p0 q0 k0 t + bpow radix2 (-42) * (M * N) <= bval d) -> g_subproblem4 A f p q k d = [].
Proof.
  intros H. destruct quot_val as (Fc & Vc & Fx & Vx & NP). destruct n_near as (_ & NH & RH). destruct e_ok as (Fe & Ee & _). pose proof Kpos as KP. pose proof uu_small as US. pose proof uu_pos as U. destruct small_K as (UK & _ & EK & _).
  rewrite sub4_list. replace (b_lt (b_lit 1 1) s_d) with true; [reflexivity|]. symmetry. apply (PropNorm.b_lt_val _ _ (proj1 PropElbow.one_val) Fx). rewrite (proj2 PropElbow.one_val).
  assert (P42 : bpow radix2 (-42) = 2048 * uu) by (unfold uu; replace (-42)%Z with (11 + -53)%Z by lia; rewrite bpow_plus; f_equal).
  assert (RC : r_r + 2048 * uK <= r_c).
  { destruct (Rtotal_order 0 r_r) as [P | [Z0 | Z0]].
    - destruct (sup_ab r_a r_b P) as (t & T). fold r_r in T. specialize (H t). pose proof (disp_eq t) as D. rewrite T in D. rewrite P42 in H. lra.
    - specialize (H 0). pose proof (disp_eq 0) as D. pose proof (below_ab r_a r_b 0) as B. fold r_r in B. rewrite P42 in H. apply Rabs_le_inv in B. lra.
    - pose proof (sqrt_pos (r_a * r_a + r_b * r_b)). unfold r_r in Z0. lra. }
  assert (R0 : 0 <= r_r) by apply sqrt_pos.
  assert (CE : r_r + 1400 * uK <= bval d - bval s_e) by (unfold r_c in RC; apply Rabs_le_inv in Ee; lra).
  assert (CE2 : r_r + 1390 * uK <= bval s_c).
  { rewrite Vc. set (w := r_r + 1400 * uK) in *. assert (W3 : w <= 21 / 10 * (M * N)) by (assert (uK <= 1 / 1000000 * (M * N)) by (apply Rmult_le_compat_r; lra); unfold w; lra). assert (W0 : 0 <= w) by (unfold w; lra).
    apply Rle_trans with (rnd w); [|apply rnd_le; exact CE]. pose proof (rnd_err w) as E. rewrite (Rabs_right w) in E by lra. assert (uu * w <= uu * (21 / 10 * (M * N))) by (apply Rmult_le_compat_l; lra). apply Rabs_le_inv in E. unfold w in *. lra. }
  assert (G : bval s_n + 500 * uK <= bval s_c) by lra.
  assert (Q : 1 + 2 * uu <= bval s_c / bval s_n).
  { apply (Rmult_le_reg_r (bval s_n)); [exact NP|]. replace (bval s_c / bval s_n * bval s_n) with (bval s_c) by (field; lra). assert (bval s_n <= 21 / 10 * (M * N)) by (assert (uK <= 1 / 1000000 * (M * N)) by (apply Rmult_le_compat_r; lra); lra).
    assert (uu * bval s_n <= uu * (21 / 10 * (M * N))) by (apply Rmult_le_compat_l; lra). lra. }
  apply Rlt_le_trans with (1 + 2 * uu); [lra|]. rewrite Vx. rewrite <- (rnd_exact (1 + 2 * uu)) at 1; [apply rnd_le; exact Q|].
  replace (1 + 2 * uu) with (F2R (Float radix2 4503599627370497 (-52))) by (unfold F2R, uu; cbn; field).
  apply generic_format_FLT. exists (Float radix2 4503599627370497 (-52)); [reflexivity|cbn; lia|cbn; lia].
Qed.
Lemma below : (forall t, bval d + bpow radix2 (-42) * (M * N) < displacement p0 q0 k0 t) -> exists t1 t2, g_subproblem4 A f p q k d = [t1; t2] /\ ~ bfin t1 /\ ~ bfin t2.
Proof.
  intros H. exists s_t1, s_t2. destruct quot_val as (Fc & Vc & Fx & Vx & NP). destruct e_ok as (Fe & Ee & _). pose proof Kpos as KP. pose proof uu_pos as U. destruct small_K as (UK & _).
  assert (P42 : bpow radix2 (-42) = 2048 * uu) by (unfold uu; replace (-42)%Z with (11 + -53)%Z by lia; rewrite bpow_plus; f_equal).
  assert (OUT : forall t, ~ Rabs (displacement p0 q0 k0 t - bval d) <= bpow radix2 (-42) * (M * N)) by (intros t C; specialize (H t); apply Rabs_le_inv in C; lra).
  split; [|split; intros F; [exact (OUT _ (t1_resid F))|exact (OUT _ (t2_resid F))]].
  rewrite sub4_list. destruct (b_lt (b_lit 1 1) s_d) eqn:LT; [|reflexivity]. exfalso. apply (PropNorm.b_lt_val _ _ (proj1 PropElbow.one_val) Fx) in LT. rewrite (proj2 PropElbow.one_val) in LT.
  assert (RC : r_c <= - (2048 * uK)). { destruct (Rle_dec 0 (r_a * sin 0 + r_b * cos 0)) as [S0 | S0]; [specialize (H PI); pose proof (disp_eq PI) as D; rewrite sin_PI, cos_PI in D; rewrite sin_0, cos_0 in S0|specialize (H 0); pose proof (disp_eq 0) as D]; rewrite P42 in H; lra. }
  assert (C0 : bval s_c <= 0). { rewrite Vc. rewrite <- rnd_0. apply rnd_le. unfold r_c in RC. apply Rabs_le_inv in Ee. lra. }
  assert (X0 : bval s_d <= 0). { rewrite Vx, <- rnd_0. apply rnd_le. unfold Rdiv. pose proof (Rinv_0_lt_compat _ NP). nra. }
  lra.
Qed.
End Reach.
End Solve.

(* ================= C106 ================= *)
Lemma stored3_vtr M x v : 0 <= M -> stored3 M x v -> vtr 0 M (v3l x) v.
Proof.
  intros M0 (F0 & F1 & F2 & -> & B). destruct (entry_le (V3 (bval (w0 x)) (bval (w1 x)) (bval (w2 x)))) as (E0 & E1 & E2). cbn [vx vy vz] in *.
  assert (T : forall y, bfin y -> Rabs (bval y) <= M -> tr 0 M y (bval y)) by (intros y F H; split; [exact F|]; rewrite Rminus_diag_eq, Rabs_R0 by reflexivity; split; lra).
  exists (w0 x), (w1 x), (w2 x). split; [reflexivity|]. cbn [vx vy vz]. split; [apply T; [exact F0|lra]|]. split; [apply T; [exact F1|lra]|]. split; [apply T; [exact F2|lra]|exact B].
Qed.
Lemma axis3_vtr x k : stored_axis3 x k -> unit3 k /\ vtr 8 1 (v3l x) k.
Proof.
  intros (U & F0 & F1 & F2 & E0 & E1 & E2). split; [exact U|]. rewrite eight in *. pose proof (norm_unit _ U) as NU. destruct (entry_le k) as (B0 & B1 & B2).
  exists (w0 x), (w1 x), (w2 x). split; [reflexivity|]. unfold tr. rewrite Rmult_1_r. repeat (split; [repeat split; try assumption; lra|]). lra.
Qed.
Lemma size_pos M : bpow radix2 (-190) <= M <= bpow radix2 190 -> 0 <= M. Proof. intros [H _]. eapply Rle_trans; [apply bpow_ge_0|exact H]. Qed.
(** every finite angle moves the displacement to d *)
Theorem C106_residual : forall L f bdot (p q k : v3 b64) (d : b64) p0 q0 k0 M N t, In bdot b_dots -> libm_angle_ok L (bpow radix2 (-50)) -> libm_asin_ok f (bpow radix2 (-50)) ->
  bpow radix2 (-190) <= M <= bpow radix2 190 -> bpow radix2 (-190) <= N <= bpow radix2 190 -> stored3 M p p0 -> stored3 N q q0 -> stored_axis3 k k0 -> bfin d ->
  In t (g_subproblem4 (b64_arith L bdot) f p q k d) -> bfin t -> Rabs (displacement p0 q0 k0 (bval t) - bval d) <= bpow radix2 (-42) * (M * N).
Proof.
  intros L f bdot p q k d p0 q0 k0 M N t HD HL HF HM HN Sp Sq Sk Fd I F. destruct (axis3_vtr _ _ Sk) as [U Tk]. pose proof (stored3_vtr _ _ _ (size_pos _ HM) Sp) as Tp. pose proof (stored3_vtr _ _ _ (size_pos _ HN) Sq) as Tq.
  rewrite sub4_list in I. destruct (b_lt _ _); [destruct I|]. destruct I as [<- | [<- | []]].
  - exact (t1_resid L f bdot HD p q k d p0 q0 k0 M N HM HN U Tp Tq Tk HL HF F).
  - exact (t2_resid L f bdot HD p q k d p0 q0 k0 M N HM HN U Tp Tq Tk HL HF F).
Qed.
(** a solution where the displacement turns at a rate of at least kap is found *)
Theorem C106_complete : forall L f bdot (p q k : v3 b64) (d : b64) p0 q0 k0 M N s kap, In bdot b_dots -> libm_angle_ok L (bpow radix2 (-50)) -> libm_asin_ok f (bpow radix2 (-50)) ->
  bpow radix2 (-190) <= M <= bpow radix2 190 -> bpow radix2 (-190) <= N <= bpow radix2 190 -> stored3 M p p0 -> stored3 N q q0 -> stored_axis3 k k0 -> bfin d ->
  displacement p0 q0 k0 s = bval d -> bpow radix2 (-20) * (M * N) <= kap -> kap <= Rabs (turn_rate p0 q0 k0 s) ->
  exists t1 t2, g_subproblem4 (b64_arith L bdot) f p q k d = [t1; t2] /\ bfin t1 /\ bfin t2 /\
    (same_angle (bpow radix2 (-40) * (M * N) / kap) (bval t1) s \/ same_angle (bpow radix2 (-40) * (M * N) / kap) (bval t2) s).
Proof.
  intros L f bdot p q k d p0 q0 k0 M N s kap HD HL HF HM HN Sp Sq Sk Fd E K1 K2. destruct (axis3_vtr _ _ Sk) as [U Tk]. pose proof (stored3_vtr _ _ _ (size_pos _ HM) Sp) as Tp. pose proof (stored3_vtr _ _ _ (size_pos _ HN) Sq) as Tq.
  exact (complete L f bdot HD p q k d p0 q0 k0 M N HM HN U Tp Tq Tk Fd HL HF s kap E K1 K2).
Qed.
(** a displacement beyond every reachable one gives no angle *)
Theorem C106_above : forall L (f : b64 -> b64) bdot (p q k : v3 b64) (d : b64) p0 q0 k0 M N s, In bdot b_dots ->
  bpow radix2 (-190) <= M <= bpow radix2 190 -> bpow radix2 (-190) <= N <= bpow radix2 190 -> stored3 M p p0 -> stored3 N q q0 -> stored_axis3 k k0 -> bfin d ->
  bpow radix2 (-20) * (M * N) <= Rabs (turn_rate p0 q0 k0 s) -> Rabs (bval d) <= bpow radix2 400 * (M * N) ->
  (forall t, displacement p0 q0 k0 t + bpow radix2 (-42) * (M * N) <= bval d) -> g_subproblem4 (b64_arith L bdot) f p q k d = [].
Proof.
  intros L f bdot p q k d p0 q0 k0 M N s HD HM HN Sp Sq Sk Fd K1 B H. destruct (axis3_vtr _ _ Sk) as [U Tk]. pose proof (stored3_vtr _ _ _ (size_pos _ HM) Sp) as Tp. pose proof (stored3_vtr _ _ _ (size_pos _ HN) Sq) as Tq.
  exact (above L f bdot HD p q k d p0 q0 k0 M N HM HN U Tp Tq Tk Fd s K1 B H).
Qed.
(** a displacement below every reachable one gives two entries that are not numbers *)
Theorem C106_below : forall L f bdot (p q k : v3 b64) (d : b64) p0 q0 k0 M N s, In bdot b_dots -> libm_angle_ok L (bpow radix2 (-50)) -> libm_asin_ok f (bpow radix2 (-50)) ->
  bpow radix2 (-190) <= M <= bpow radix2 190 -> bpow radix2 (-190) <= N <= bpow radix2 190 -> stored3 M p p0 -> stored3 N q q0 -> stored_axis3 k k0 -> bfin d ->
  bpow radix2 (-20) * (M * N) <= Rabs (turn_rate p0 q0 k0 s) -> Rabs (bval d) <= bpow radix2 400 * (M * N) ->
  (forall t, bval d + bpow radix2 (-42) * (M * N) < displacement p0 q0 k0 t) ->
  exists t1 t2, g_subproblem4 (b64_arith L bdot) f p q k d = [t1; t2] /\ ~ bfin t1 /\ ~ bfin t2.
Proof.
  intros L f bdot p q k d p0 q0 k0 M N s HD HL HF HM HN Sp Sq Sk Fd K1 B H. destruct (axis3_vtr _ _ Sk) as [U Tk]. pose proof (stored3_vtr _ _ _ (size_pos _ HM) Sp) as Tp. pose proof (stored3_vtr _ _ _ (size_pos _ HN) Sq) as Tq.
  exact (below L f bdot HD p q k d p0 q0 k0 M N HM HN U Tp Tq Tk Fd HL HF s K1 B H).
Qed.

(* ---- the reals ---- *)
Lemma real_vm p M : g_vm real_arith (emb_v p) (emb_m M) = emb_v (mvec (mT M) p).
Proof.
  change (g_vm real_arith (emb_v p) (emb_m M)) with (W3 (g_dot3 real_arith (emb_v p) (emb_v (row0 (mT M)))) (g_dot3 real_arith (emb_v p) (emb_v (row1 (mT M)))) (g_dot3 real_arith (emb_v p) (emb_v (row2 (mT M))))).
  rewrite !real_dot3. unfold emb_v, mvec, mT, LinAlg.dot, row0, row1, row2. cbn [vx vy vz]. cbn. f_equal; ring.
Qed.
Lemma real_list p q k d : let a := LinAlg.dot p (mvec (hat k) q) in let b := - LinAlg.dot p (mvec (hat k) (mvec (hat k) q)) in let c := d - (LinAlg.dot p q - b) in let n := sqrt (a * a + b * b) in
  g_subproblem4 real_arith asin (emb_v p) (emb_v q) (emb_v k) d = if Rltb 1 (c / n) then [] else [- atan2 b a + asin (c / n); - atan2 b a - asin (c / n) + PI].
Proof.
  cbv zeta. unfold g_subproblem4. rewrite real_hat, real_vm, !real_mv, !real_dot3.
  assert (E : LinAlg.dot (mvec (mT (hat k)) p) q = LinAlg.dot p (mvec (hat k) q)) by (unfold LinAlg.dot, mvec, mT, hat, row0, row1, row2; cbn; ring). rewrite E.
  unfold l_norm. cbn [nneg nsub nadd ndiv natan2 nlt nsqrt ndot npi real_arith]. assert (O : none1 real_arith = 1) by (cbn; field). rewrite O.
  assert (D : forall a b, dot_R [a; b] [a; b] = a * a + b * b) by (intros; unfold dot_R; cbn; ring). rewrite D. reflexivity.
Qed.
(** over the reals it is the program of C33 *)
Theorem C106_reals : forall p q k d, unit3 k ->
  (forall l, l <> [] -> subproblem4 p q k d = map Fin l -> g_subproblem4 real_arith asin (emb_v p) (emb_v q) (emb_v k) d = l) /\
  (forall s, turn_rate p q k s <> 0 -> subproblem4 p q k d = [] -> g_subproblem4 real_arith asin (emb_v p) (emb_v q) (emb_v k) d = []).
Proof.
  intros p q k d U. rewrite real_list. unfold subproblem4. set (a := LinAlg.dot p (mvec (hat k) q)). set (b := - LinAlg.dot p (mvec (hat k) (mvec (hat k) q))). set (c := d - (LinAlg.dot p q - b)). set (n := sqrt (a * a + b * b)). split.
  - intros l NE E. destruct (Reqb n 0); [destruct (Rltb 0 c); [destruct l; [contradiction|discriminate E]|destruct l as [|x l]; discriminate E]|].
    destruct (Rltb 1 (c / n)); [destruct l; [contradiction|discriminate E]|]. destruct (Rltb (c / n) (-1)); [destruct l as [|x l]; discriminate E|].
    destruct l as [|x [|y [|z l]]]; try discriminate E. cbn [map] in E. injection E as -> ->. reflexivity.
  - intros s T E. destruct (Reqb n 0) eqn:N0.
    + exfalso. apply T. apply FactsReal.Reqb_true in N0. assert (Z : a * a + b * b = 0) by (apply sqrt_eq_0; [pose proof (Rle_0_sqr a); pose proof (Rle_0_sqr b); unfold Rsqr in *; lra|exact N0]).
      assert (ZA : a = 0) by (apply Rsqr_0_uniq; unfold Rsqr; pose proof (Rle_0_sqr a); pose proof (Rle_0_sqr b); unfold Rsqr in *; lra). assert (ZB : b = 0) by (apply Rsqr_0_uniq; unfold Rsqr; pose proof (Rle_0_sqr a); pose proof (Rle_0_sqr b); unfold Rsqr in *; lra).
      replace (turn_rate p q k s) with (a * cos s - b * sin s) by (unfold a, b, turn_rate, rotate, mvec, hat, row0, row1, row2, LinAlg.dot; cbn [vx vy vz vadd vscale cross]; cbn; ring). rewrite ZA, ZB. ring.
    + destruct (Rltb 1 (c / n)); [reflexivity|]. destruct (Rltb (c / n) (-1)); discriminate E.
Qed.

(* ---- an edge of the reach is lost ---- *)
Definition e_p : v3 b64 := W3 (b_ofZ 5) (b_ofZ 12) (b_ofZ 11).
Definition e_q : v3 b64 := W3 (b_ofZ 1) (b_ofZ 0) (b_ofZ 4503599627370497).
Definition e_k : v3 b64 := W3 (b_ofZ 0) (b_ofZ 0) (b_ofZ 1).
Definition e_d : b64 := b_ofZ 49539595901075480.
Lemma sd_ind L L' bdot p q k d : s_d L bdot p q k d = s_d L' bdot p q k d.
Proof. unfold s_d, s_c, s_n, s_e, s_a, s_b. reflexivity. Qed.
Lemma edge_all bdot : In bdot b_dots -> b_lt (b_lit 1 1) (s_d arc_libm bdot e_p e_q e_k e_d) = true.
Proof. intros H. cbn [In b_dots] in H. repeat (destruct H as [<- | H]; [vm_compute; reflexivity|]). contradiction. Qed.
Theorem C106_lost_refuted : exists p q k d p0 q0 k0 M N s,
  bpow radix2 (-190) <= M <= bpow radix2 190 /\ bpow radix2 (-190) <= N <= bpow radix2 190 /\ stored3 M p p0 /\ stored3 N q q0 /\ stored_axis3 k k0 /\ bfin d /\ displacement p0 q0 k0 s = bval d /\
  forall L (f : b64 -> b64) bdot, In bdot b_dots -> g_subproblem4 (b64_arith L bdot) f p q k d = [].
Proof.
  destruct (unit_circle_angle (12 / 13) (5 / 13)) as (t & C & S0); [field|].
  exists e_p, e_q, e_k, e_d, (V3 5 12 11), (V3 1 0 4503599627370497), (V3 0 0 1), (bpow radix2 10), (bpow radix2 60), t.
  assert (NS : forall v n, 0 <= n -> LinAlg.dot v v <= n * n -> norm v <= n) by (intros v n P Q; unfold norm, norm2; rewrite <- (sqrt_square n P); apply sqrt_le_1_alt; exact Q).
  split; [split; apply bpow_le; lia|]. split; [split; apply bpow_le; lia|].
  split. { split; [reflexivity|]. split; [reflexivity|]. split; [reflexivity|]. split; [f_equal; vm_compute; lra|]. apply NS; [apply bpow_ge_0|]. unfold LinAlg.dot. cbn. lra. }
  split. { split; [reflexivity|]. split; [reflexivity|]. split; [reflexivity|]. split; [f_equal; vm_compute; lra|]. apply NS; [apply bpow_ge_0|]. unfold LinAlg.dot. cbn. lra. }
  split. { split; [unfold unit3, LinAlg.dot; cbn; ring|]. assert (V0 : bval (b_ofZ 0) = 0) by (vm_compute; lra). assert (V1 : bval (b_ofZ 1) = 1) by (vm_compute; lra). unfold e_k. cbn [w0 w1 w2 vx vy vz]. rewrite V0, V1, !Rminus_diag_eq, Rabs_R0 by reflexivity. pose proof (bpow_ge_0 radix2 (-50)). repeat (split; [reflexivity || assumption|]). assumption. }
  split; [reflexivity|]. split.
  - assert (VD : bval e_d = 49539595901075480) by (vm_compute; lra). rewrite VD. unfold displacement, rotate, LinAlg.dot. cbn [vx vy vz vadd vscale cross]. rewrite C, S0. field.
  - intros L f bdot HD. rewrite sub4_list, (sd_ind L arc_libm), (edge_all bdot HD). reflexivity.
Qed.

(* ---- an arcsin that meets the contract, and a case for each theorem ---- *)
Definition arc_asin (x : b64) : b64 := if (is_finite x && Rleb (Rabs (bval x)) 1)%bool then b_near (asin (bval x)) else B754_nan.
Lemma arc_asin_ok : libm_asin_ok arc_asin (bpow radix2 (-50)).
Proof.
  rewrite eight. pose proof pi_hi as PH. split.
  - intros x F B. unfold arc_asin. unfold bfin in F. rewrite F. assert (E : Rleb (Rabs (bval x)) 1 = true) by (unfold Rleb; destruct (Rle_dec _ _); [reflexivity | contradiction]). rewrite E. cbn [andb]. apply near_err. pose proof (asin_bound (bval x)). apply Rabs_le. lra.
  - intros x. unfold arc_asin, bfin. destruct (is_finite x) eqn:F; cbn [andb]; [|discriminate]. destruct (Rleb (Rabs (bval x)) 1) eqn:E; [|discriminate]. intros _. split; [reflexivity|]. unfold Rleb in E. destruct (Rle_dec _ _); [assumption|discriminate].
Qed.
Definition x_p : v3 b64 := W3 (b_ofZ 3) (b_ofZ 4) (b_ofZ 2).
Definition x_q : v3 b64 := W3 (b_ofZ 5) (b_ofZ 0) (b_ofZ 1).
Lemma x_stored : bpow radix2 (-190) <= 8 <= bpow radix2 190 /\ stored3 8 x_p (V3 3 4 2) /\ stored3 8 x_q (V3 5 0 1) /\ stored_axis3 e_k (V3 0 0 1).
Proof.
  assert (NS : forall v n, 0 <= n -> LinAlg.dot v v <= n * n -> norm v <= n) by (intros v n P Q; unfold norm, norm2; rewrite <- (sqrt_square n P); apply sqrt_le_1_alt; exact Q).
  split. { change 8 with (bpow radix2 3). split; apply bpow_le; lia. }
  split. { split; [reflexivity|]. split; [reflexivity|]. split; [reflexivity|]. split; [f_equal; vm_compute; lra|]. apply NS; [lra|]. unfold LinAlg.dot. cbn. lra. }
  split. { split; [reflexivity|]. split; [reflexivity|]. split; [reflexivity|]. split; [f_equal; vm_compute; lra|]. apply NS; [lra|]. unfold LinAlg.dot. cbn. lra. }
  split; [unfold unit3, LinAlg.dot; cbn; ring|]. assert (V0 : bval (b_ofZ 0) = 0) by (vm_compute; lra). assert (V1 : bval (b_ofZ 1) = 1) by (vm_compute; lra). unfold e_k. cbn [w0 w1 w2 vx vy vz]. rewrite V0, V1, !Rminus_diag_eq, Rabs_R0 by reflexivity. pose proof (bpow_ge_0 radix2 (-50)). repeat (split; [reflexivity || assumption|]). assumption.
Qed.
Lemma x_disp t : displacement (V3 3 4 2) (V3 5 0 1) (V3 0 0 1) t = 15 * cos t + 20 * sin t + 2 /\ turn_rate (V3 3 4 2) (V3 5 0 1) (V3 0 0 1) t = 20 * cos t - 15 * sin t.
Proof. unfold displacement, turn_rate, rotate, LinAlg.dot. cbn [vx vy vz vadd vscale cross]. split; ring. Qed.
(** d = 17 is reached without turning, where the rate is 20 *)
Example C106_ex : forall bdot, In bdot b_dots ->
  (displacement (V3 3 4 2) (V3 5 0 1) (V3 0 0 1) 0 = bval (b_ofZ 17) /\ bpow radix2 (-20) * (8 * 8) <= 20 <= Rabs (turn_rate (V3 3 4 2) (V3 5 0 1) (V3 0 0 1) 0)) /\
  exists t1 t2, g_subproblem4 (b64_arith arc_libm bdot) arc_asin x_p x_q e_k (b_ofZ 17) = [t1; t2] /\ bfin t1 /\ bfin t2 /\
    Rabs (displacement (V3 3 4 2) (V3 5 0 1) (V3 0 0 1) (bval t1) - 17) <= bpow radix2 (-36) /\ Rabs (displacement (V3 3 4 2) (V3 5 0 1) (V3 0 0 1) (bval t2) - 17) <= bpow radix2 (-36) /\
    (same_angle (bpow radix2 (-38)) (bval t1) 0 \/ same_angle (bpow radix2 (-38)) (bval t2) 0).
Proof.
  intros bdot HD. destruct x_stored as (S8 & Sp & Sq & Sk). assert (VD : bval (b_ofZ 17) = 17) by (vm_compute; lra).
  assert (E0 : displacement (V3 3 4 2) (V3 5 0 1) (V3 0 0 1) 0 = bval (b_ofZ 17)) by (rewrite (proj1 (x_disp 0)), VD, cos_0, sin_0; ring).
  assert (K1 : bpow radix2 (-20) * (8 * 8) <= 20) by (cbn; lra). assert (K2 : 20 <= Rabs (turn_rate (V3 3 4 2) (V3 5 0 1) (V3 0 0 1) 0)) by (rewrite (proj2 (x_disp 0)), cos_0, sin_0, Rabs_right; lra).
  split; [split; [exact E0|split; [exact K1|exact K2]]|].
  destruct (C106_complete arc_libm arc_asin bdot x_p x_q e_k (b_ofZ 17) _ _ _ 8 8 0 20 HD PropRpy.arc_angle_ok arc_asin_ok S8 S8 Sp Sq Sk eq_refl E0 K1 K2) as (t1 & t2 & E & F1 & F2 & SA).
  exists t1, t2. split; [exact E|]. split; [exact F1|]. split; [exact F2|].
  assert (R0 : forall t, In t [t1; t2] -> bfin t -> Rabs (displacement (V3 3 4 2) (V3 5 0 1) (V3 0 0 1) (bval t) - 17) <= bpow radix2 (-36)).
  { intros t I F. rewrite <- E in I. pose proof (C106_residual arc_libm arc_asin bdot x_p x_q e_k (b_ofZ 17) _ _ _ 8 8 t HD PropRpy.arc_angle_ok arc_asin_ok S8 S8 Sp Sq Sk eq_refl I F) as R1. rewrite VD in R1. eapply Rle_trans; [exact R1|]. cbn. lra. }
  split; [apply R0; [left; reflexivity|exact F1]|]. split; [apply R0; [right; left; reflexivity|exact F2]|].
  assert (W : forall t, same_angle (bpow radix2 (-40) * (8 * 8) / 20) t 0 -> same_angle (bpow radix2 (-38)) t 0) by (intros t (j & J); exists j; eapply Rle_trans; [exact J|]; cbn; lra).
  destruct SA as [SA | SA]; [left|right]; apply W; exact SA.
Qed.
Lemma x_range t : -23 <= displacement (V3 3 4 2) (V3 5 0 1) (V3 0 0 1) t <= 27.
Proof. rewrite (proj1 (x_disp t)). pose proof (sin2_cos2 t) as SC. unfold Rsqr in SC. pose proof (Rle_0_sqr (20 * cos t - 15 * sin t)) as Q. unfold Rsqr in Q. assert ((15 * cos t + 20 * sin t) * (15 * cos t + 20 * sin t) <= 25 * 25) by nra. nra. Qed.
Example C106_above_ex : forall L (f : b64 -> b64) bdot, In bdot b_dots -> g_subproblem4 (b64_arith L bdot) f x_p x_q e_k (b_ofZ 28) = [].
Proof.
  intros L f bdot HD. destruct x_stored as (S8 & Sp & Sq & Sk). assert (VD : bval (b_ofZ 28) = 28) by (vm_compute; lra).
  apply (C106_above L f bdot x_p x_q e_k (b_ofZ 28) _ _ _ 8 8 0 HD S8 S8 Sp Sq Sk eq_refl).
  - rewrite (proj2 (x_disp 0)), cos_0, sin_0, Rabs_right; cbn; lra.
  - rewrite VD, Rabs_right by lra. assert (1 <= bpow radix2 400) by (change 1 with (bpow radix2 0); apply bpow_le; lia). lra.
  - intros t. rewrite VD. pose proof (x_range t). cbn. lra.
Qed.
(** an unreachable d is answered with two entries that are not numbers in place of none *)
Theorem C106_nan_refuted : forall bdot, In bdot b_dots -> exists d, bfin d /\ (forall t, displacement (V3 3 4 2) (V3 5 0 1) (V3 0 0 1) t <> bval d) /\
  exists t1 t2, g_subproblem4 (b64_arith arc_libm bdot) arc_asin x_p x_q e_k d = [t1; t2] /\ ~ bfin t1 /\ ~ bfin t2.
Proof.
  intros bdot HD. destruct x_stored as (S8 & Sp & Sq & Sk). exists (b_ofZ (-24)). assert (VD : bval (b_ofZ (-24)) = -24) by (vm_compute; lra). split; [reflexivity|].
  split; [intros t; rewrite VD; pose proof (x_range t); lra|].
  apply (C106_below arc_libm arc_asin bdot x_p x_q e_k (b_ofZ (-24)) _ _ _ 8 8 0 HD PropRpy.arc_angle_ok arc_asin_ok S8 S8 Sp Sq Sk eq_refl).
  - rewrite (proj2 (x_disp 0)), cos_0, sin_0, Rabs_right; cbn; lra.
  - rewrite VD, Rabs_left by lra. assert (1 <= bpow radix2 400) by (change 1 with (bpow radix2 0); apply bpow_le; lia). lra.
  - intros t. rewrite VD. pose proof (x_range t). cbn. lra.
Qed.
Example C106_reals_ex : turn_rate (V3 3 4 2) (V3 5 0 1) (V3 0 0 1) 0 <> 0 /\ subproblem4 (V3 3 4 2) (V3 5 0 1) (V3 0 0 1) 28 = [].
Proof.
  split; [rewrite (proj2 (x_disp 0)), cos_0, sin_0; lra|]. apply PropSub.C33_subproblem4_too_large; [unfold unit3, LinAlg.dot; cbn; ring|]. intros t. pose proof (x_range t) as H. unfold displacement in H. lra.
Qed.
Print Assumptions C106_residual.
Print Assumptions C106_complete.
Print Assumptions C106_above.
Print Assumptions C106_below.
Print Assumptions C106_reals.
Print Assumptions C106_lost_refuted.
Print Assumptions C106_nan_refuted.
