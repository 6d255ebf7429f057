(** C107: subproblem2 in binary64. *)
From Coq Require Import Reals ZArith List Bool Lra Lia Psatz.
From Flocq Require Import Core.Core IEEE754.BinarySingleNaN.
From Verif Require Import LinAlg RealAux Py FactsReal FactsLinAlg ModelRot SpecRot FactsRot FactsNorm SpecSub ModelSub FactsSub ModelFloat ModelFloat10 SpecRound FactsB64 FactsExact FactsTrack SpecArc FactsAngle PropPi PropAngle FactsSub2.
From Verif Require PropNorm PropElbow PropSub4 PropReal PropSub PropB64 PropReach.
Import ListNotations.
Open Scope R_scope.

Lemma beps_ok : bfin (b_lit 1 (2 ^ 52)) /\ bval (b_lit 1 (2 ^ 52)) = eps.
Proof. split; [reflexivity|]. unfold eps. vm_compute. lra. Qed.
Lemma bzero_ok : bfin (b_lit 0 1) /\ bval (b_lit 0 1) = 0. Proof. split; reflexivity. Qed.
Lemma abs_ok (x : b64) : bfin x -> bfin (Babs x) /\ bval (Babs x) = Rabs (bval x).
Proof. intros F. split; [unfold bfin; rewrite is_finite_Babs; exact F|apply B2R_Babs]. Qed.
Lemma lt_false (x y : b64) : bfin x -> bfin y -> (b_lt x y = false <-> bval y <= bval x).
Proof. intros Fx Fy. pose proof (PropNorm.b_lt_val x y Fx Fy) as B. destruct (b_lt x y); split; intros H; try discriminate; try reflexivity. - pose proof (proj1 B eq_refl). lra. - apply Rnot_lt_le. intros C. apply B in C. discriminate. Qed.
Lemma turn_norm h t v : unit3 h -> norm (rotate h t v) = norm v.
Proof. intros U. rewrite <- (rot_rotate h t v U). apply SO3_norm, rot_SO3. exact U. Qed.
Lemma turn_sub h t v w : rotate h t (vsub v w) = vsub (rotate h t v) (rotate h t w). Proof. unfold rotate. la_ring. Qed.
Lemma turn_back h t v : unit3 h -> rotate h (- t) (rotate h t v) = v.
Proof. intros U. rewrite <- !(rot_rotate h _ _ U). rewrite <- mvec_mmul, rot_add, Rplus_opp_l by exact U. rewrite FactsRot.rot_0. apply mvec_I. Qed.
Lemma turn_height h t v : unit3 h -> LinAlg.dot (rotate h t v) h = LinAlg.dot v h.
Proof.
  intros U. unfold rotate. rewrite !dot_vadd_l, !dot_vscale_l. rewrite (dot_comm (cross h v) h), dot_cross_l. unfold unit3 in U. rewrite U, (dot_comm h v). ring.
Qed.
Lemma sub3 (a b c : vec3) : vsub a b = vsub (vsub a c) (vsub b c). Proof. la_ring. Qed.
Lemma tri3 (a b c : vec3) : vsub a b = vadd (vsub a c) (vsub c b). Proof. la_ring. Qed.
Lemma dsub3 (a b c : vec3) : LinAlg.dot (vsub a b) c = LinAlg.dot a c - LinAlg.dot b c. Proof. la_ring. Qed.
(** a vector away from a coordinate axis *)
Lemma off_ok i m l v : (i < 3)%nat -> rg 160 m -> vtr 0 m l v -> bpow radix2 (-300) <= norm (perp (PropReach.e_axis i) v) ->
  exists x y z, l = [x; y; z] /\ Forall (upto 400) [x; y; z] /\ PropB64.off_axis i l.
Proof.
  intros Hi RM (x & y & z & -> & (Fx & Ex & _) & (Fy & Ey & _) & (Fz & Ez & _) & N) B. exists x, y, z. split; [reflexivity|].
  assert (EQ : forall a b : R, Rabs (a - b) <= 0 * (uu * m) -> a = b) by (intros a b H; rewrite Rmult_0_l in H; pose proof (Rabs_pos (a - b)); assert (Z : Rabs (a - b) = 0) by lra; destruct (Req_dec (a - b) 0); [lra|exfalso; exact (Rabs_no_R0 _ H1 Z)]).
  apply EQ in Ex, Ey, Ez. destruct v as [vx0 vy0 vz0]. cbn [vx vy vz] in Ex, Ey, Ez. subst vx0 vy0 vz0. destruct (entry_le (V3 (bval x) (bval y) (bval z))) as (L1 & L2 & L3). cbn [vx vy vz] in L1, L2, L3.
  assert (UP : forall w, bfin w -> Rabs (bval w) <= m -> upto 400 w) by (intros w F W; split; [exact F|]; destruct RM as [_ R]; apply Rle_trans with (bpow radix2 160); [lra|apply bpow_le; lia]).
  split. { repeat (apply Forall_cons; [apply UP; [assumption|lra]|]). apply Forall_nil. }
  assert (SM : bpow radix2 (-400) < 1 / 2 * bpow radix2 (-300)). { apply Rlt_le_trans with (bpow radix2 (-301)); [apply bpow_lt; lia|]. change (-301)%Z with (-1 + -300)%Z. rewrite bpow_plus. change (bpow radix2 (-1)) with (/ 2). lra. }
  assert (P0 : 0 < bpow radix2 (-300)) by apply bpow_gt_0.
  assert (BIG : forall a b c, Rabs a < bpow radix2 (-400) -> Rabs b < bpow radix2 (-400) -> c = 0 -> forall w, (w = V3 a b c \/ w = V3 a c b \/ w = V3 c a b) -> norm w < bpow radix2 (-300)).
  { intros a b c HA HB HC w HW. assert (Rabs c = 0) by (rewrite HC; apply Rabs_R0). pose proof (bpow_gt_0 radix2 (-400)) as P4. eapply Rle_lt_trans; [apply (norm_entries w (bpow radix2 (-400))); [lra| | |]; destruct HW as [-> | [-> | ->]]; cbn [vx vy vz]; lra|]. lra. }
  unfold PropB64.off_axis.
  assert (PE : forall a b c, perp (PropReach.e_axis i) (V3 a b c) = match i with 0%nat => V3 0 b c | 1%nat => V3 a 0 c | _ => V3 a b 0 end).
  { intros a b c. unfold perp, PropReach.e_axis, vsub, vscale, LinAlg.dot. destruct i as [|[|[|i]]]; [| | |exfalso; lia]; cbn [vx vy vz]; f_equal; ring. }
  rewrite PE in B.
  destruct i as [|[|[|i]]]; [| | |exfalso; lia].
  - destruct (Rle_or_lt (bpow radix2 (-400)) (Rabs (bval y))) as [H|H]; [exists 1%nat, y; auto|]. destruct (Rle_or_lt (bpow radix2 (-400)) (Rabs (bval z))) as [H'|H']; [exists 2%nat, z; auto|]. exfalso. pose proof (BIG _ _ 0 H H' eq_refl _ (or_intror (or_intror eq_refl))). lra.
  - destruct (Rle_or_lt (bpow radix2 (-400)) (Rabs (bval x))) as [H|H]; [exists 0%nat, x; auto|]. destruct (Rle_or_lt (bpow radix2 (-400)) (Rabs (bval z))) as [H'|H']; [exists 2%nat, z; auto|]. exfalso. pose proof (BIG _ _ 0 H H' eq_refl _ (or_intror (or_introl eq_refl))). lra.
  - destruct (Rle_or_lt (bpow radix2 (-400)) (Rabs (bval x))) as [H|H]; [exists 0%nat, x; auto|]. destruct (Rle_or_lt (bpow radix2 (-400)) (Rabs (bval y))) as [H'|H']; [exists 1%nat, y; auto|]. exfalso. pose proof (BIG _ _ 0 H H' eq_refl _ (or_introl eq_refl)). lra.
Qed.

Section Sub2.
Context (L : libm) (bdot : list b64 -> list b64 -> b64).
Notation A := (b64_arith L bdot).
(** the program by its intermediate results *)
Lemma sub2_list p q k1 k2 : g_subproblem2 A p q k1 k2 =
  if b_lt (Babs (b_sub (b_lit 1 1) (t_s bdot k1 k2))) (b_lit 1 (2 ^ 52)) then Ok [] else
  let bb := if b_lt (Babs (t_b bdot p q k1 k2)) (b_lit 1 (2 ^ 52)) then b_lit 0 1 else t_b bdot p q k1 k2 in
  if b_lt bb (b_lit 0 1) then Ok [] else
  let g := b_div (b_sqrt bb) (t_nc L bdot k1 k2) in
  let c g := l_comb A k1 k2 (t_x L bdot k1 k2) (t_a0 bdot p q k1 k2) (t_a1 bdot p q k1 k2) g in
  if b_lt (Babs g) (b_lit 1 (2 ^ 52)) then
    let* theta2 := g_subproblem1 A k2 p (c g) in let* theta1 := g_subproblem1 A k1 q (c g) in Ok [(Bopp theta1, theta2)]
  else
    let* t11 := g_subproblem1 A q (c g) k1 in let* t12 := g_subproblem1 A q (c (Bopp g)) k1 in
    let* t21 := g_subproblem1 A p (c g) k2 in let* t22 := g_subproblem1 A p (c (Bopp g)) k2 in Ok [(Bopp t11, t21); (Bopp t12, t22)].
Proof. unfold g_subproblem2, neps, none1, nzero, l_norm, t_b, t_nc, t_x, t_a0, t_a1, t_n0, t_n1, t_den, t_s, t_p, t_q, t_k. cbn [nlt nabs nsub nmul ndiv nneg nsqrt ndot nlit b64_arith]. reflexivity. Qed.

Context (HD : In bdot b_dots).
Context (p q k1 k2 : list b64) (p0 q0 h1 h2 : vec3) (M G : R).
Context (HM : rg 150 M) (U1 : unit3 h1) (U2 : unit3 h2) (Hp : vtr 0 M p p0) (Hq : vtr 0 M q q0) (H1 : vtr 8 1 k1 h1) (H2 : vtr 8 1 k2 h2).
Notation K := (LinAlg.dot h1 h2).
Context (G1 : 1 <= G) (HG : 1 <= G * (1 - K * K)) (HGB : G * G <= bpow radix2 34).
Notation tb := (t_b bdot p q k1 k2).
Notation tg := (t_g L bdot p q k1 k2).
Notation cc g := (l_comb A k1 k2 (t_x L bdot k1 k2) (t_a0 bdot p q k1 k2) (t_a1 bdot p q k1 k2) g).
Notation e2 := (uu * (M * M) * (G * G)).
Lemma q0_near : norm q0 <= M /\ Rabs (LinAlg.dot q0 h1 - LinAlg.dot q0 h1) <= 16 * (uu * M).
Proof. split; [destruct Hq as (_ & _ & _ & _ & _ & _ & _ & N); exact N|]. rewrite Rminus_diag_eq, Rabs_R0 by reflexivity. pose proof uu_pos. pose proof (rg_pos _ _ HM). apply Rmult_le_pos; [lra|apply Rmult_le_pos; lra]. Qed.
Lemma first_test : b_lt (Babs (b_sub (b_lit 1 1) (t_s bdot k1 k2))) (b_lit 1 (2 ^ 52)) = false.
Proof.
  assert (R2 : rg 900 (2 * 1)) by (rewrite Rmult_1_r; split; [apply Rle_trans with (bpow radix2 0); [apply bpow_le; lia|cbn; lra]|change 2 with (bpow radix2 1); apply bpow_le; lia]).
  destruct (tr_sub 0 149 1 _ _ _ _ ltac:(apply cbs; lra) ltac:(apply cbs; lra) R2 (one_tr 0 (Rle_refl 0)) (s_ok bdot HD k1 k2 h1 h2 H1 H2)) as (F & E & _).
  destruct (abs_ok _ F) as [FA VA]. apply (lt_false _ _ FA (proj1 beps_ok)). rewrite VA, (proj2 beps_ok). destruct (D_pos h1 h2 G G1 HG HGB) as (DP & DG & DU). pose proof uu_pos. apply Rabs_le_inv in E.
  assert (eps <= 2 * uu) by (rewrite uu_val'; unfold eps; cbn; lra). apply Rle_trans with (bval (b_sub (b_lit 1 1) (t_s bdot k1 k2))); [lra|apply Rle_abs].
Qed.
Lemma dead_g : bfin (b_div (b_sqrt (b_lit 0 1)) (t_nc L bdot k1 k2)) /\ bval (b_div (b_sqrt (b_lit 0 1)) (t_nc L bdot k1 k2)) = 0.
Proof.
  destruct (nc_ok L bdot HD k1 k2 h1 h2 G U1 U2 H1 H2 G1 HG HGB) as (F & _ & B & _). destruct (s_rng h1 h2 G U1 U2 G1 HG HGB) as ((S & _) & _).
  change (b_sqrt (b_lit 0 1)) with b_zero. destruct (div_range b_zero (t_nc L bdot k1 k2) eq_refl ltac:(lra)) as [F0 V0].
  { apply (PropSub4.rnd_room _ 10); [lia|]. replace (bval b_zero) with 0 by reflexivity. unfold Rdiv. rewrite Rmult_0_l, Rabs_R0. apply bpow_ge_0. }
  split; [exact F0|]. rewrite V0. replace (bval b_zero) with 0 by reflexivity. unfold Rdiv. rewrite Rmult_0_l. apply rnd_0.
Qed.
(** two solutions are only given on the crossing branch *)
Lemma two_pairs x y : g_subproblem2 A p q k1 k2 = Ok [x; y] -> eps <= bval tb /\ exists t11 t12 t21 t22,
  g_subproblem1 A q (cc tg) k1 = Ok t11 /\ g_subproblem1 A q (cc (Bopp tg)) k1 = Ok t12 /\ g_subproblem1 A p (cc tg) k2 = Ok t21 /\ g_subproblem1 A p (cc (Bopp tg)) k2 = Ok t22 /\ x = (Bopp t11, t21) /\ y = (Bopp t12, t22).
Proof.
  rewrite sub2_list, first_test. destruct (b_ok bdot HD p q k1 k2 p0 q0 h1 h2 M G HM U1 U2 Hp Hq H1 H2 G1 HG HGB) as [FB _]. destruct (abs_ok _ FB) as [FA VA]. cbv zeta.
  destruct (b_lt (Babs tb) (b_lit 1 (2 ^ 52))) eqn:T1.
  - intros E. exfalso. replace (b_lt (b_lit 0 1) (b_lit 0 1)) with false in E by reflexivity. destruct dead_g as [F0 V0]. destruct (abs_ok _ F0) as [FA0 VA0].
    assert (T : b_lt (Babs (b_div (b_sqrt (b_lit 0 1)) (t_nc L bdot k1 k2))) (b_lit 1 (2 ^ 52)) = true) by (apply (PropNorm.b_lt_val _ _ FA0 (proj1 beps_ok)); rewrite VA0, V0, Rabs_R0, (proj2 beps_ok); apply eps_pos).
    rewrite T in E. destruct (g_subproblem1 A k2 p _) as [t2|]; [|discriminate]. cbn [bind] in E. destruct (g_subproblem1 A k1 q _) as [t1|]; discriminate.
  - apply (lt_false _ _ FA (proj1 beps_ok)) in T1. rewrite VA, (proj2 beps_ok) in T1.
    destruct (b_lt tb (b_lit 0 1)) eqn:T2; [discriminate|]. apply (lt_false _ _ FB (proj1 bzero_ok)) in T2. rewrite (proj2 bzero_ok) in T2. rewrite Rabs_right in T1 by lra. fold tg.
    destruct (b_lt (Babs tg) (b_lit 1 (2 ^ 52))).
    + intros E. exfalso. destruct (g_subproblem1 A k2 p _) as [t2|]; [|discriminate]. cbn [bind] in E. destruct (g_subproblem1 A k1 q _) as [t1|]; discriminate.
    + intros E. split; [exact T1|]. destruct (g_subproblem1 A q (cc tg) k1) as [t11|] eqn:E1; [|discriminate]. cbn [bind] in E. destruct (g_subproblem1 A q (cc (Bopp tg)) k1) as [t12|] eqn:E2; [|discriminate]. cbn [bind] in E.
      destruct (g_subproblem1 A p (cc tg) k2) as [t21|] eqn:E3; [|discriminate]. cbn [bind] in E. destruct (g_subproblem1 A p (cc (Bopp tg)) k2) as [t22|] eqn:E4; [|discriminate]. cbn [bind] in E. injection E as <- <-.
      exists t11, t12, t21, t22. auto 10.
Qed.
(** the crossing branch is taken *)
Lemma taken_eq be : 0 < be -> bpow radix2 (-36) * (G * G) <= be * be -> 4 * eps <= be * be * (M * M) -> be * be * (M * M) <= cone_gap p0 q0 h1 h2 ->
  0 <= bval tb /\ g_subproblem2 A p q k1 k2 = let* t11 := g_subproblem1 A q (cc tg) k1 in let* t12 := g_subproblem1 A q (cc (Bopp tg)) k1 in
    let* t21 := g_subproblem1 A p (cc tg) k2 in let* t22 := g_subproblem1 A p (cc (Bopp tg)) k2 in Ok [(Bopp t11, t21); (Bopp t12, t22)].
Proof.
  intros BP B1 B2 B3. destruct (gap_big bdot HD p q k1 k2 p0 q0 h1 h2 M G HM U1 U2 Hp Hq H1 H2 G1 HG HGB q0 (proj1 q0_near) (proj2 q0_near) be B1 B2 B3) as [TB1 TB2]. pose proof eps_pos as EP.
  destruct (b_ok bdot HD p q k1 k2 p0 q0 h1 h2 M G HM U1 U2 Hp Hq H1 H2 G1 HG HGB) as [FB _]. destruct (abs_ok _ FB) as [FA VA].
  rewrite sub2_list, first_test. cbv zeta.
  assert (T1 : b_lt (Babs tb) (b_lit 1 (2 ^ 52)) = false) by (apply (lt_false _ _ FA (proj1 beps_ok)); rewrite VA, (proj2 beps_ok), Rabs_right; lra).
  assert (T2 : b_lt tb (b_lit 0 1) = false) by (apply (lt_false _ _ FB (proj1 bzero_ok)); rewrite (proj2 bzero_ok); lra).
  rewrite T1, T2. fold tg. assert (TB : 0 <= bval tb) by lra.
  destruct (g_ok L bdot HD p q k1 k2 p0 q0 h1 h2 M G HM U1 U2 Hp Hq H1 H2 G1 HG HGB TB) as (FG & [G0 _] & EG & _). destruct (abs_ok _ FG) as [FGA VGA]. destruct (s_rng h1 h2 G U1 U2 G1 HG HGB) as ((S0 & S1) & _).
  assert (T3 : b_lt (Babs tg) (b_lit 1 (2 ^ 52)) = false).
  { apply (lt_false _ _ FGA (proj1 beps_ok)). rewrite VGA, (proj2 beps_ok), Rabs_right by lra. set (s := norm (cross h1 h2)) in *. apply Rabs_le_inv in EG.
    pose proof (rg_pos _ _ HM) as MP. pose proof uu_pos as U.
    assert (SB : 9 / 10 * (be * M) <= sqrt (bval tb)). { rewrite <- (sqrt_square (9 / 10 * (be * M))) by (apply Rmult_le_pos; [lra|apply Rmult_le_pos; lra]). apply sqrt_le_1_alt. replace (9 / 10 * (be * M) * (9 / 10 * (be * M))) with (81 / 100 * (be * be * (M * M))) by field. assert (0 < be * be * (M * M)) by (apply Rmult_lt_0_compat; apply Rmult_lt_0_compat; lra). lra. }
    assert (BM : 2 * sqrt_eps <= be * M). { apply Rnot_lt_le. intros C. pose proof sqrt_eps_sq as Q. assert (0 < be * M) by (apply Rmult_lt_0_compat; lra). assert (be * M * (be * M) < 2 * sqrt_eps * (2 * sqrt_eps)) by (apply Rmult_le_0_lt_compat; lra). lra. }
    assert (BG : bpow radix2 (-18) * G <= be). { apply Rnot_lt_le. intros C. assert (be * be < bpow radix2 (-18) * G * (bpow radix2 (-18) * G)) by (apply Rmult_le_0_lt_compat; lra). replace (bpow radix2 (-18) * G * (bpow radix2 (-18) * G)) with (bpow radix2 (-36) * (G * G)) in * by (change (bpow radix2 (-36)) with (bpow radix2 (-18 + -18)); rewrite bpow_plus; ring). lra. }
    assert (UG : 120 * (uu * M * G) <= 1 / 10 * (be * M)). { assert (M * (bpow radix2 (-18) * G) <= M * be) by (apply Rmult_le_compat_l; lra). assert (0 < M * G) by (apply Rmult_lt_0_compat; lra). assert (uu * (M * G) <= 1 / 1000000 * (bpow radix2 (-18) * (M * G))). { replace (1 / 1000000 * (bpow radix2 (-18) * (M * G))) with (1 / 1000000 * bpow radix2 (-18) * (M * G)) by ring. apply Rmult_le_compat_r; [lra|]. rewrite uu_val'. cbn. lra. } lra. }
    assert (s * bval tg <= 1 * bval tg) by (apply Rmult_le_compat_r; lra). pose proof sqrt_eps_pos. pose proof sqrt_eps_sq. pose proof sqrt_eps_small. assert (sqrt_eps * sqrt_eps <= sqrt_eps * 1) by (apply Rmult_le_compat_l; lra). lra. }
  rewrite T3. split; [exact TB|reflexivity].
Qed.
Lemma taken be : 0 < be -> bpow radix2 (-36) * (G * G) <= be * be -> 4 * eps <= be * be * (M * M) -> be * be * (M * M) <= cone_gap p0 q0 h1 h2 ->
  g_subproblem2 A p q k1 k2 = Err AssertionError \/ exists x y, g_subproblem2 A p q k1 k2 = Ok [x; y].
Proof.
  intros BP B1 B2 B3. rewrite (proj2 (taken_eq be BP B1 B2 B3)).
  assert (ER : forall a b c (e : exn), g_subproblem1 A a b c = Err e -> e = AssertionError) by (intros a b c e; apply C89_error).
  destruct (g_subproblem1 A q (cc tg) k1) as [t11|e] eqn:E1; cbn [bind]; [|left; f_equal; exact (ER _ _ _ _ E1)]. destruct (g_subproblem1 A q (cc (Bopp tg)) k1) as [t12|e] eqn:E2; cbn [bind]; [|left; f_equal; exact (ER _ _ _ _ E2)].
  destruct (g_subproblem1 A p (cc tg) k2) as [t21|e] eqn:E3; cbn [bind]; [|left; f_equal; exact (ER _ _ _ _ E3)]. destruct (g_subproblem1 A p (cc (Bopp tg)) k2) as [t22|e] eqn:E4; cbn [bind]; [|left; f_equal; exact (ER _ _ _ _ E4)].
  right. eauto.
Qed.
(** cones that miss *)
Lemma missed : cone_gap p0 q0 h1 h2 < - (9900 * e2 + eps) -> g_subproblem2 A p q k1 k2 = Ok [].
Proof.
  intros B. pose proof (b_gap bdot HD p q k1 k2 p0 q0 h1 h2 M G HM U1 U2 Hp Hq H1 H2 G1 HG HGB q0 (proj1 q0_near) (proj2 q0_near)) as E. apply Rabs_le_inv in E. pose proof eps_pos as EP.
  destruct (b_ok bdot HD p q k1 k2 p0 q0 h1 h2 M G HM U1 U2 Hp Hq H1 H2 G1 HG HGB) as [FB _]. destruct (abs_ok _ FB) as [FA VA].
  rewrite sub2_list, first_test. cbv zeta.
  assert (T1 : b_lt (Babs tb) (b_lit 1 (2 ^ 52)) = false) by (apply (lt_false _ _ FA (proj1 beps_ok)); rewrite VA, (proj2 beps_ok), Rabs_left; lra).
  assert (T2 : b_lt tb (b_lit 0 1) = true) by (apply (PropNorm.b_lt_val _ _ FB (proj1 bzero_ok)); rewrite (proj2 bzero_ok); lra).
  rewrite T1, T2. reflexivity.
Qed.

Context (HL : libm_arc_ok L (8 * uu)) (r : R) (R1 : 1 <= r) (HR : G * G * (r * r) <= bpow radix2 34) (HN : Rabs (LinAlg.dot p0 p0 - LinAlg.dot q0 q0) <= 9000 * (uu * (M * M))).
Context (Bp : M <= r * norm (perp h2 p0)) (Bq : M <= r * norm (perp h1 q0)).
Notation tl := (tol M G r).
Notation ct := (cst L bdot p q k1 k2 h1 h2).
(** both angles of a pair bring their vectors to the same stored point *)
Lemma pair_ok g' sg t1 t2 : (g' = tg /\ sg = 1 \/ g' = Bopp tg /\ sg = -1) -> 0 <= bval tb -> g_subproblem1 A q (cc g') k1 = Ok t1 -> g_subproblem1 A p (cc g') k2 = Ok t2 ->
  bfin t1 /\ bfin t2 /\ (Rabs (bval t1) <= 16 / 5 /\ Rabs (bval t2) <= 16 / 5) /\ exists c, norm (vsub c (ct sg)) <= 2094 * (uu * M * G) /\ norm (vsub (rotate h1 (bval t1) q0) c) <= sqrt_eps + tl /\ norm (vsub (rotate h2 (bval t2) p0) c) <= sqrt_eps + tl.
Proof.
  intros SG TB E1 E2. assert (SS : sg * sg = 1) by (destruct SG as [[_ ->] | [_ ->]]; ring).
  destruct (comb_ok L bdot HD p q k1 k2 p0 q0 h1 h2 M G HM U1 U2 Hp Hq H1 H2 G1 HG HGB g' sg SG TB) as (c & VC & NC).
  destruct (heights bdot HD p q k1 k2 p0 q0 h1 h2 M G HM U1 U2 Hp Hq H1 H2 G1 HG HGB) as [HT1 HT2].
  rewrite <- (cst_1 L bdot p q k1 k2 h1 h2 U1 sg) in HT1. rewrite <- (cst_2 L bdot p q k1 k2 h1 h2 U2 sg) in HT2.
  assert (Z : Rabs (LinAlg.dot p0 p0 - LinAlg.dot p0 p0) <= 9000 * (uu * (M * M))) by (rewrite Rminus_diag_eq, Rabs_R0 by reflexivity; pose proof uu_pos; pose proof (rg_pos _ _ HM); apply Rmult_le_pos; [lra|apply Rmult_le_pos; [lra|apply Rmult_le_pos; lra]]).
  destruct (turn_ok L bdot HD p q k1 k2 p0 q0 h1 h2 M G HM U1 U2 Hp Hq H1 H2 G1 HG HGB HL r R1 HR sg c _ q0 q h1 k1 t1 U1 H1 Hq VC SS TB NC HT1 HN Bq E1) as (F1 & Z1 & T1).
  destruct (turn_ok L bdot HD p q k1 k2 p0 q0 h1 h2 M G HM U1 U2 Hp Hq H1 H2 G1 HG HGB HL r R1 HR sg c _ p0 p h2 k2 t2 U2 H2 Hp VC SS TB NC HT2 Z Bp E2) as (F2 & Z2 & T2).
  split; [exact F1|]. split; [exact F2|]. split; [split; assumption|]. exists c. auto.
Qed.

Lemma tol_le : tl <= M * r * (bpow radix2 (-29) + bpow radix2 (-38) * (G * G)) - 32 * (uu * M).
Proof.
  pose proof (rg_pos _ _ HM) as MP. pose proof uu_pos as U. assert (0 < M * r) by (apply Rmult_lt_0_compat; lra). assert (0 < G * G) by (apply Rmult_lt_0_compat; lra).
  replace (bpow radix2 (-29)) with (16777216 * uu) by (change 16777216 with (bpow radix2 24); unfold uu; rewrite <- bpow_plus; reflexivity). replace (bpow radix2 (-38)) with (32768 * uu) by (change 32768 with (bpow radix2 15); unfold uu; rewrite <- bpow_plus; reflexivity).
  unfold tol. replace (M * r * (10100000 * uu + 32500 * uu * (G * G))) with (10100000 * (uu * (M * r)) + 32500 * (uu * (M * r) * (G * G))) by ring. replace (M * r * (16777216 * uu + 32768 * uu * (G * G))) with (16777216 * (uu * (M * r)) + 32768 * (uu * (M * r) * (G * G))) by ring.
  assert (UMR : 0 < uu * (M * r)) by (apply Rmult_lt_0_compat; lra). assert (0 < uu * (M * r) * (G * G)) by (apply Rmult_lt_0_compat; lra). assert (uu * (M * 1) <= uu * (M * r)) by (apply Rmult_le_compat_l; [lra|apply Rmult_le_compat_l; lra]). lra.
Qed.
Lemma pair_error t1 t2 c : norm (vsub (rotate h1 t1 q0) c) <= sqrt_eps + tl -> norm (vsub (rotate h2 t2 p0) c) <= sqrt_eps + tl -> sp2_error p0 q0 h1 h2 (- t1) t2 <= 2 * sqrt_eps + 2 * tl.
Proof.
  intros B1 B2. unfold sp2_error. rewrite <- (turn_back h1 t1 q0 U1) at 1. rewrite <- turn_sub, (turn_norm _ _ _ U1).
  set (x := rotate h2 t2 p0) in *. set (y := rotate h1 t1 q0) in *. rewrite (sub3 x y c). eapply Rle_trans; [apply FactsNorm.norm_vsub_le|]. lra.
Qed.
Lemma residual x y t1 t2 : g_subproblem2 A p q k1 k2 = Ok [x; y] -> In (t1, t2) [x; y] ->
  bfin t1 /\ bfin t2 /\ (Rabs (bval t1) <= 16 / 5 /\ Rabs (bval t2) <= 16 / 5) /\ sp2_error p0 q0 h1 h2 (bval t1) (bval t2) <= 2 * sqrt_eps + M * r * (bpow radix2 (-28) + bpow radix2 (-37) * (G * G)).
Proof.
  intros E I. destruct (two_pairs x y E) as (TB & t11 & t12 & t21 & t22 & E1 & E2 & E3 & E4 & -> & ->). pose proof eps_pos as EP. assert (TB0 : 0 <= bval tb) by lra. pose proof tol_le as TL.
  assert (D28 : M * r * (bpow radix2 (-28) + bpow radix2 (-37) * (G * G)) = 2 * (M * r * (bpow radix2 (-29) + bpow radix2 (-38) * (G * G)))).
  { change (-28)%Z with (1 + -29)%Z. change (-37)%Z with (1 + -38)%Z. rewrite !bpow_plus. change (bpow radix2 1) with 2. ring. }
  assert (UM : 0 < uu * M) by (apply Rmult_lt_0_compat; [apply uu_pos|apply (rg_pos _ _ HM)]).
  assert (F : forall g' sg a b, (g' = tg /\ sg = 1 \/ g' = Bopp tg /\ sg = -1) -> g_subproblem1 A q (cc g') k1 = Ok a -> g_subproblem1 A p (cc g') k2 = Ok b ->
    bfin (Bopp a) /\ bfin b /\ (Rabs (bval (Bopp a)) <= 16 / 5 /\ Rabs (bval b) <= 16 / 5) /\ sp2_error p0 q0 h1 h2 (bval (Bopp a)) (bval b) <= 2 * sqrt_eps + M * r * (bpow radix2 (-28) + bpow radix2 (-37) * (G * G))).
  { intros g' sg a b SG Ea Eb. destruct (pair_ok g' sg a b SG TB0 Ea Eb) as (Fa & Fb & [Z1 Z2] & c & _ & B1 & B2). split; [unfold bfin; rewrite is_finite_Bopp; exact Fa|]. split; [exact Fb|]. rewrite PropSub4.opp_val. rewrite Rabs_Ropp. split; [split; assumption|]. pose proof (pair_error _ _ c B1 B2). lra. }
  destruct I as [I|[I|[]]]; injection I as <- <-; [apply (F tg 1); auto|apply (F (Bopp tg) (-1)); auto].
Qed.
(** the two pairs bring the vectors to opposite sides of the plane of the axes *)
Lemma sides x y be sg : 0 < be -> bpow radix2 (-36) * (G * G) <= be * be -> 4 * eps <= be * be * (M * M) -> be * be * (M * M) <= cone_gap p0 q0 h1 h2 ->
  g_subproblem2 A p q k1 k2 = Ok [x; y] -> sg = 1 \/ sg = -1 ->
  exists t1 t2, In (t1, t2) [x; y] /\ norm (cross h1 h2) * (94 / 100 * (be * M) - (sqrt_eps + tl + 2214 * (uu * M * G))) <= sg * LinAlg.dot (rotate h2 (bval t2) p0) (cross h1 h2).
Proof.
  intros BP B1 B2 B3 E SG. destruct (two_pairs x y E) as (TB & t11 & t12 & t21 & t22 & E1 & E2 & E3 & E4 & EX & EY). pose proof eps_pos as EP. assert (TB0 : 0 <= bval tb) by lra. pose proof (rg_pos _ _ HM) as MP.
  destruct (gap_big bdot HD p q k1 k2 p0 q0 h1 h2 M G HM U1 U2 Hp Hq H1 H2 G1 HG HGB q0 (proj1 q0_near) (proj2 q0_near) be B1 B2 B3) as [TB1 _].
  destruct (g_ok L bdot HD p q k1 k2 p0 q0 h1 h2 M G HM U1 U2 Hp Hq H1 H2 G1 HG HGB TB0) as (_ & _ & GE & _). set (s := norm (cross h1 h2)) in *. set (gm := bval tg) in *.
  assert (BM : 0 < be * M) by (apply Rmult_lt_0_compat; lra).
  assert (SQ : 94 / 100 * (be * M) <= sqrt (bval tb)).
  { apply Rsqr_incr_0; [|lra|apply sqrt_pos]. unfold Rsqr. rewrite sqrt_sqrt by exact TB0. assert (0 < be * M * (be * M)) by (apply Rmult_lt_0_compat; exact BM). lra. }
  assert (CN : forall sg', LinAlg.dot (ct sg') (cross h1 h2) = sg' * (s * (s * gm))).
  { intros sg'. unfold cst. rewrite !dot_vadd_l, !dot_vscale_l, dot_cross_l, dot_cross_r. fold gm. rewrite <- norm_sq. fold s. ring. }
  assert (S0 : 0 <= s) by apply norm_nonneg.
  assert (F : forall g' a b, (g' = tg /\ sg = 1 \/ g' = Bopp tg /\ sg = -1) -> g_subproblem1 A q (cc g') k1 = Ok a -> g_subproblem1 A p (cc g') k2 = Ok b ->
    s * (94 / 100 * (be * M) - (sqrt_eps + tl + 2214 * (uu * M * G))) <= sg * LinAlg.dot (rotate h2 (bval b) p0) (cross h1 h2)).
  { intros g' a b SG' Ea Eb. destruct (pair_ok g' sg a b SG' TB0 Ea Eb) as (_ & _ & _ & c & NC & _ & T2).
    assert (X : Rabs (LinAlg.dot (rotate h2 (bval b) p0) (cross h1 h2) - LinAlg.dot (ct sg) (cross h1 h2)) <= (sqrt_eps + tl + 2094 * (uu * M * G)) * s).
    { rewrite <- dsub3. eapply Rle_trans; [apply abs_dot_le|]. apply Rmult_le_compat_r; [exact S0|]. rewrite (tri3 _ (ct sg) c). eapply Rle_trans; [apply norm_triangle|]. lra. }
    rewrite CN in X. apply Rabs_le_inv in X. apply Rabs_le_inv in GE.
    assert (Y : s * (94 / 100 * (be * M) - 120 * (uu * M * G)) <= s * (s * gm)) by (apply Rmult_le_compat_l; [exact S0|lra]).
    destruct SG as [-> | ->]; lra. }
  destruct SG as [SG | SG]; rewrite SG in *.
  - exists (Bopp t11), t21. split; [left; exact EX|]. apply (F tg t11 t21); auto.
  - exists (Bopp t12), t22. split; [right; left; exact EY|]. apply (F (Bopp tg) t12 t22); auto.
Qed.
Lemma found s1 s2 be : sp2_error p0 q0 h1 h2 s1 s2 <= 16 * (uu * M) -> 0 < be <= 1 -> bpow radix2 (-36) * (G * G) <= be * be -> 4 * eps <= be * be * (M * M) -> be * be * (M * M) <= cone_gap p0 q0 h1 h2 ->
  g_subproblem2 A p q k1 k2 = Err AssertionError \/ exists x y t1 t2, g_subproblem2 A p q k1 k2 = Ok [x; y] /\ In (t1, t2) [x; y] /\ bfin t1 /\ bfin t2 /\
    norm (vsub (rotate h2 (bval t2) p0) (rotate h2 s2 p0)) <= sqrt_eps + M * r * (bpow radix2 (-29) + bpow radix2 (-38) * (G * G)) + M * (bpow radix2 (-39) * (G * G) / be) /\
    norm (vsub (rotate h1 (bval t1) (rotate h2 s2 p0)) (rotate h1 s1 (rotate h2 s2 p0))) <= sqrt_eps + M * r * (bpow radix2 (-29) + bpow radix2 (-38) * (G * G)) + M * (bpow radix2 (-39) * (G * G) / be).
Proof.
  intros SE [BP BL] B1 B2 B3. destruct (taken be BP B1 B2 B3) as [E|(x & y & E)]; [left; exact E|right]. pose proof eps_pos as EP. pose proof uu_pos as U. pose proof (rg_pos _ _ HM) as MP. assert (UM : 0 < uu * M) by (apply Rmult_lt_0_compat; lra).
  destruct (two_pairs x y E) as (TB & t11 & t12 & t21 & t22 & E1 & E2 & E3 & E4 & EX & EY). assert (TB0 : 0 <= bval tb) by lra.
  set (c0 := rotate h2 s2 p0). unfold sp2_error in SE. fold c0 in SE. set (q' := rotate h1 s1 c0) in *.
  assert (NP : norm p0 <= M) by (destruct Hp as (_ & _ & _ & _ & _ & _ & _ & N); exact N).
  assert (C2 : LinAlg.dot c0 h2 = LinAlg.dot p0 h2) by (unfold c0; apply turn_height; exact U2). assert (CQ : LinAlg.dot c0 h1 = LinAlg.dot q' h1) by (unfold q'; symmetry; apply turn_height; exact U1).
  assert (NC : norm c0 = norm p0) by (apply turn_norm; exact U2). assert (CC : LinAlg.dot c0 c0 = LinAlg.dot p0 p0) by (rewrite <- !norm_sq, NC; reflexivity).
  assert (NQ' : norm q' <= M) by (unfold q'; rewrite (turn_norm _ _ _ U1), NC; exact NP).
  assert (HQ' : Rabs (LinAlg.dot q' h1 - LinAlg.dot q0 h1) <= 16 * (uu * M)). { rewrite <- dsub3. eapply Rle_trans; [apply abs_dot_le|]. rewrite (norm_unit _ U1). lra. }
  assert (GAP : 84 / 100 * (be * be * (M * M)) <= cone_gap p0 q' h1 h2).
  { pose proof (b_gap bdot HD p q k1 k2 p0 q0 h1 h2 M G HM U1 U2 Hp Hq H1 H2 G1 HG HGB q0 (proj1 q0_near) (proj2 q0_near)) as X0. pose proof (b_gap bdot HD p q k1 k2 p0 q0 h1 h2 M G HM U1 U2 Hp Hq H1 H2 G1 HG HGB q' NQ' HQ') as X1.
    apply Rabs_le_inv in X0, X1. assert (131072 * e2 <= be * be * (M * M)). { assert (MMP : 0 < M * M) by (apply Rmult_lt_0_compat; lra). apply Rle_trans with (bpow radix2 (-36) * (G * G) * (M * M)); [|apply Rmult_le_compat_r; lra]. replace (bpow radix2 (-36)) with (131072 * uu) by (change 131072 with (bpow radix2 17); unfold uu; rewrite <- bpow_plus; reflexivity). lra. } lra. }
  destruct (cst_near L bdot HD p q k1 k2 p0 q0 h1 h2 M G HM U1 U2 Hp Hq H1 H2 G1 HG HGB q' NQ' HQ' c0 be CC C2 CQ (conj BP BL) B1 B2 GAP TB0) as (sg & SG & CN).
  assert (BIG : 13700 * (uu * M * (G * G) / be) + 2094 * (uu * M * G) <= M * (bpow radix2 (-39) * (G * G) / be)).
  { replace (bpow radix2 (-39)) with (16384 * uu) by (change 16384 with (bpow radix2 14); unfold uu; rewrite <- bpow_plus; reflexivity). replace (M * (16384 * uu * (G * G) / be)) with (16384 * (uu * M * (G * G) / be)) by (field; lra).
    assert (X : uu * M * G <= uu * M * (G * G) / be). { apply (Rmult_le_reg_r be); [lra|]. replace (uu * M * (G * G) / be * be) with (uu * M * (G * G)) by (field; lra). rewrite Rmult_assoc. apply Rmult_le_compat_l; [lra|]. assert (G * be <= G * 1) by (apply Rmult_le_compat_l; lra). assert (G * 1 <= G * G) by (apply Rmult_le_compat_l; lra). lra. }
    assert (0 < uu * M * G) by (apply Rmult_lt_0_compat; lra). lra. }
  pose proof tol_le as TL.
  assert (F : forall g' a b, (g' = tg /\ sg = 1 \/ g' = Bopp tg /\ sg = -1) -> g_subproblem1 A q (cc g') k1 = Ok a -> g_subproblem1 A p (cc g') k2 = Ok b -> In (Bopp a, b) [x; y] ->
    exists x' y' t1 t2, g_subproblem2 A p q k1 k2 = Ok [x'; y'] /\ In (t1, t2) [x'; y'] /\ bfin t1 /\ bfin t2 /\
    norm (vsub (rotate h2 (bval t2) p0) c0) <= sqrt_eps + M * r * (bpow radix2 (-29) + bpow radix2 (-38) * (G * G)) + M * (bpow radix2 (-39) * (G * G) / be) /\
    norm (vsub (rotate h1 (bval t1) c0) q') <= sqrt_eps + M * r * (bpow radix2 (-29) + bpow radix2 (-38) * (G * G)) + M * (bpow radix2 (-39) * (G * G) / be)).
  { intros g' a b SG' Ea Eb I. destruct (pair_ok g' sg a b SG' TB0 Ea Eb) as (Fa & Fb & _ & c & NC' & T1 & T2). exists x, y, (Bopp a), b. split; [exact E|]. split; [exact I|]. split; [unfold bfin; rewrite is_finite_Bopp; exact Fa|]. split; [exact Fb|].
    assert (CD : norm (vsub c c0) <= M * (bpow radix2 (-39) * (G * G) / be)). { rewrite (sub3 c c0 (ct sg)). eapply Rle_trans; [apply FactsNorm.norm_vsub_le|]. lra. }
    split.
    - rewrite (tri3 _ c0 c). eapply Rle_trans; [apply norm_triangle|]. lra.
    - rewrite PropSub4.opp_val.
      assert (X : norm (vsub (rotate h1 (- bval a) c0) q0) <= sqrt_eps + tl + M * (bpow radix2 (-39) * (G * G) / be)).
      { rewrite <- (turn_back h1 (bval a) q0 U1) at 1. rewrite <- turn_sub, (turn_norm _ _ _ U1).
        rewrite norm_vsub_sym, (tri3 _ c0 c). eapply Rle_trans; [apply norm_triangle|]. lra. }
      rewrite (sub3 _ q' q0). eapply Rle_trans; [apply FactsNorm.norm_vsub_le|]. lra. }
  destruct SG as [SG|SG].
  - apply (F tg t11 t21); auto. left. exact EX.
  - apply (F (Bopp tg) t12 t22); auto. right. left. exact EY.
Qed.

(** about coordinate axes subproblem1 answers for the stored points *)
Lemma answered i j g' sg : (i < 3)%nat -> (j < 3)%nat -> k1 = PropB64.b_axis i -> h1 = PropReach.e_axis i -> k2 = PropB64.b_axis j -> h2 = PropReach.e_axis j ->
  (g' = tg /\ sg = 1 \/ g' = Bopp tg /\ sg = -1) -> 0 <= bval tb -> exists t1 t2, g_subproblem1 A q (cc g') k1 = Ok t1 /\ g_subproblem1 A p (cc g') k2 = Ok t2.
Proof.
  intros Hi Hj K1 X1 K2 X2 SG TB. assert (SS : sg * sg = 1) by (destruct SG as [[_ ->] | [_ ->]]; ring).
  destruct (comb_ok L bdot HD p q k1 k2 p0 q0 h1 h2 M G HM U1 U2 Hp Hq H1 H2 G1 HG HGB g' sg SG TB) as (c & VC & NC).
  destruct (heights bdot HD p q k1 k2 p0 q0 h1 h2 M G HM U1 U2 Hp Hq H1 H2 G1 HG HGB) as [HT1 HT2].
  rewrite <- (cst_1 L bdot p q k1 k2 h1 h2 U1 sg) in HT1. rewrite <- (cst_2 L bdot p q k1 k2 h1 h2 U2 sg) in HT2.
  assert (Z : Rabs (LinAlg.dot p0 p0 - LinAlg.dot p0 p0) <= 9000 * (uu * (M * M))) by (rewrite Rminus_diag_eq, Rabs_R0 by reflexivity; pose proof uu_pos; pose proof (rg_pos _ _ HM); apply Rmult_le_pos; [lra|apply Rmult_le_pos; [lra|apply Rmult_le_pos; lra]]).
  assert (NP : norm p0 <= M) by (destruct Hp as (_ & _ & _ & _ & _ & _ & _ & N); exact N).
  destruct (perp_low L bdot HD p q k1 k2 p0 q0 h1 h2 M G HM U1 U2 Hp Hq H1 H2 G1 HG HGB r R1 HR sg c q0 h1 U1 (proj1 q0_near) SS TB NC HT1 HN Bq) as (N1 & _ & L1 & _).
  destruct (perp_low L bdot HD p q k1 k2 p0 q0 h1 h2 M G HM U1 U2 Hp Hq H1 H2 G1 HG HGB r R1 HR sg c p0 h2 U2 NP SS TB NC HT2 Z Bp) as (N2 & _ & L2 & _).
  assert (RB : r <= 131072) by (exact (r_le G G1 r HR)).
  assert (LOW : forall n, M <= r * n -> 0 < n -> bpow radix2 (-299) <= n).
  { intros n B NP'. destruct HM as [HM1 _]. change (- (150))%Z with (-150)%Z in HM1. apply Rnot_lt_le. intros C. assert (r * n <= 131072 * n) by (apply Rmult_le_compat_r; lra). assert (131072 * bpow radix2 (-299) <= bpow radix2 (-150)) by (change 131072 with (bpow radix2 17); rewrite <- bpow_plus; apply bpow_le; lia). lra. }
  pose proof (LOW _ Bq N1) as B1. pose proof (LOW _ Bp N2) as B2.
  assert (HALF : bpow radix2 (-299) = 2 * bpow radix2 (-300)) by (change (-299)%Z with (1 + -300)%Z; rewrite bpow_plus; reflexivity). pose proof (bpow_gt_0 radix2 (-300)) as P3.
  assert (RM : rg 160 M) by (apply (rg_weak 150); [lia|exact HM]). assert (RM2 : rg 160 (2 * M)) by (apply (rg_weak 153); [lia|]; apply (rg_scale 150); [exact HM|lra]).
  destruct (off_ok i M q q0 Hi RM Hq) as (q1 & q2 & q3 & EQ & FQ & OQ); [rewrite <- X1; lra|].
  destruct (off_ok j M p p0 Hj RM Hp) as (p1 & p2 & p3 & EP & FP & OP); [rewrite <- X2; lra|].
  destruct (off_ok i (2 * M) _ c Hi RM2 VC) as (c1 & c2 & c3 & EC & FC & OC); [rewrite <- X1; lra|].
  destruct (off_ok j (2 * M) _ c Hj RM2 VC) as (d1 & d2 & d3 & ED & FD & OD); [rewrite <- X2; lra|].
  rewrite EC in ED. injection ED as <- <- <-. rewrite EC. rewrite EC in OC, OD. subst k1 k2. rewrite EQ in OQ. rewrite EP in OP.
  destruct (PropB64.C79_coordinate_axis L bdot i q1 q2 q3 c1 c2 c3 HD Hi) as [t1 T1]; [apply (Forall_app _ [q1; q2; q3] [c1; c2; c3]); split; assumption|exact OQ|exact OC|].
  destruct (PropB64.C79_coordinate_axis L bdot j p1 p2 p3 c1 c2 c3 HD Hj) as [t2 T2]; [apply (Forall_app _ [p1; p2; p3] [c1; c2; c3]); split; assumption|exact OP|exact OD|].
  exists t1, t2. split; [rewrite EQ; exact T1|rewrite EP; exact T2].
Qed.
Lemma not_err i j be : (i < 3)%nat -> (j < 3)%nat -> k1 = PropB64.b_axis i -> h1 = PropReach.e_axis i -> k2 = PropB64.b_axis j -> h2 = PropReach.e_axis j ->
  0 < be -> bpow radix2 (-36) * (G * G) <= be * be -> 4 * eps <= be * be * (M * M) -> be * be * (M * M) <= cone_gap p0 q0 h1 h2 -> g_subproblem2 A p q k1 k2 <> Err AssertionError.
Proof.
  intros Hi Hj K1 X1 K2 X2 BP B1 B2 B3. destruct (taken_eq be BP B1 B2 B3) as [TB E]. rewrite E.
  destruct (answered i j tg 1 Hi Hj K1 X1 K2 X2 (or_introl (conj eq_refl eq_refl)) TB) as (a & b & -> & ->). destruct (answered i j (Bopp tg) (-1) Hi Hj K1 X1 K2 X2 (or_intror (conj eq_refl eq_refl)) TB) as (c & d & -> & ->). discriminate.
Qed.
End Sub2.

(* ================= C107 ================= *)
Lemma axis_unit l k : stored_axis l k -> unit3 k. Proof. intros (U & _). exact U. Qed.
Lemma gg_le G r : 1 <= G -> 1 <= r -> G * G * (r * r) <= bpow radix2 34 -> G * G <= bpow radix2 34.
Proof. intros G1 R1 B. assert (1 * 1 <= r * r) by (apply Rmult_le_compat; lra). assert (0 < G * G) by (apply Rmult_lt_0_compat; lra). assert (G * G * 1 <= G * G * (r * r)) by (apply Rmult_le_compat_l; lra). lra. Qed.
Lemma b40 : bpow radix2 (-40) = 8192 * uu. Proof. rewrite uu_val'. cbn. lra. Qed.
Lemma b48 : bpow radix2 (-48) = 32 * uu. Proof. rewrite uu_val'. cbn. lra. Qed.
Lemma b49 : bpow radix2 (-49) = 16 * uu. Proof. rewrite uu_val'. cbn. lra. Qed.
Lemma b39 : bpow radix2 (-39) = 16384 * uu. Proof. rewrite uu_val'. cbn. lra. Qed.

(** When subproblem2 returns two pairs, each of them turns p onto q up to the rounding errors.  G bounds 1 / sin^2 of the
    angle between the axes, M / r is a lower bound of the distances of p and q from their axes. *)
Theorem C107_residual : forall L bdot p q k1 k2 p0 q0 a1 a2 M G r x y t1 t2, In bdot b_dots -> libm_arc_ok L (bpow radix2 (-50)) ->
  bpow radix2 (-150) <= M <= bpow radix2 150 -> stored M p p0 -> stored M q q0 -> stored_axis k1 a1 -> stored_axis k2 a2 -> Rabs (LinAlg.dot p0 p0 - LinAlg.dot q0 q0) <= bpow radix2 (-40) * (M * M) ->
  1 <= G -> 1 <= G * (1 - LinAlg.dot a1 a2 * LinAlg.dot a1 a2) -> 1 <= r -> G * G * (r * r) <= bpow radix2 34 -> M <= r * norm (perp a2 p0) -> M <= r * norm (perp a1 q0) ->
  g_subproblem2 (b64_arith L bdot) p q k1 k2 = Ok [x; y] -> In (t1, t2) [x; y] ->
  bfin t1 /\ bfin t2 /\ (Rabs (bval t1) <= 16 / 5 /\ Rabs (bval t2) <= 16 / 5) /\ sp2_error p0 q0 a1 a2 (bval t1) (bval t2) <= 2 * sqrt_eps + M * r * (bpow radix2 (-28) + bpow radix2 (-37) * (G * G)).
Proof.
  intros L bdot p q k1 k2 p0 q0 a1 a2 M G r x y t1 t2 HD HL HM Sp Sq S1 S2 HN G1 HG R1 HR Bp Bq E I. rewrite eight in HL. rewrite b40 in HN.
  refine (residual L bdot HD p q k1 k2 p0 q0 a1 a2 M G HM (axis_unit _ _ S1) (axis_unit _ _ S2) (PropElbow.stored_vtr _ _ _ Sp) (PropElbow.stored_vtr _ _ _ Sq) (PropElbow.axis_vtr _ _ S1) (PropElbow.axis_vtr _ _ S2) G1 HG (gg_le _ _ G1 R1 HR) HL r R1 HR _ Bp Bq x y t1 t2 E I).
  pose proof (rg_pos 150 M HM) as MP. assert (0 < uu * (M * M)) by (apply Rmult_lt_0_compat; [apply uu_pos|apply Rmult_lt_0_compat; lra]). lra.
Qed.
(** Where the cones cross clearly there are two pairs, or an assertion of subproblem1 fails: never one pair. *)
Theorem C107_two : forall L bdot p q k1 k2 p0 q0 a1 a2 M G be, In bdot b_dots -> bpow radix2 (-150) <= M <= bpow radix2 150 ->
  stored M p p0 -> stored M q q0 -> stored_axis k1 a1 -> stored_axis k2 a2 -> 1 <= G -> 1 <= G * (1 - LinAlg.dot a1 a2 * LinAlg.dot a1 a2) -> G * G <= bpow radix2 34 ->
  0 < be -> bpow radix2 (-36) * (G * G) <= be * be -> 4 * eps <= be * be * (M * M) -> be * be * (M * M) <= cone_gap p0 q0 a1 a2 ->
  g_subproblem2 (b64_arith L bdot) p q k1 k2 = Err AssertionError \/ exists x y, g_subproblem2 (b64_arith L bdot) p q k1 k2 = Ok [x; y].
Proof.
  intros L bdot p q k1 k2 p0 q0 a1 a2 M G be HD HM Sp Sq S1 S2 G1 HG HGB BP B1 B2 B3.
  exact (taken L bdot HD p q k1 k2 p0 q0 a1 a2 M G HM (axis_unit _ _ S1) (axis_unit _ _ S2) (PropElbow.stored_vtr _ _ _ Sp) (PropElbow.stored_vtr _ _ _ Sq) (PropElbow.axis_vtr _ _ S1) (PropElbow.axis_vtr _ _ S2) G1 HG HGB be BP B1 B2 B3).
Qed.
(** The two pairs bring the vectors to opposite sides of the plane of the axes, clearly so where the cones cross clearly. *)
Theorem C107_sides : forall L bdot p q k1 k2 p0 q0 a1 a2 M G r be x y sg, In bdot b_dots -> libm_arc_ok L (bpow radix2 (-50)) ->
  bpow radix2 (-150) <= M <= bpow radix2 150 -> stored M p p0 -> stored M q q0 -> stored_axis k1 a1 -> stored_axis k2 a2 -> Rabs (LinAlg.dot p0 p0 - LinAlg.dot q0 q0) <= bpow radix2 (-40) * (M * M) ->
  1 <= G -> 1 <= G * (1 - LinAlg.dot a1 a2 * LinAlg.dot a1 a2) -> 1 <= r -> G * G * (r * r) <= bpow radix2 34 -> M <= r * norm (perp a2 p0) -> M <= r * norm (perp a1 q0) ->
  0 < be -> bpow radix2 (-36) * (G * G) <= be * be -> 4 * eps <= be * be * (M * M) -> be * be * (M * M) <= cone_gap p0 q0 a1 a2 ->
  g_subproblem2 (b64_arith L bdot) p q k1 k2 = Ok [x; y] -> sg = 1 \/ sg = -1 ->
  exists t1 t2, In (t1, t2) [x; y] /\
    norm (cross a1 a2) * (94 / 100 * (be * M) - (sqrt_eps + M * r * (bpow radix2 (-29) + bpow radix2 (-38) * (G * G)) + bpow radix2 (-41) * (M * G))) <= sg * LinAlg.dot (rotate a2 (bval t2) p0) (cross a1 a2).
Proof.
  intros L bdot p q k1 k2 p0 q0 a1 a2 M G r be x y sg HD HL HM Sp Sq S1 S2 HN G1 HG R1 HR Bp Bq BP B1 B2 B3 E SG. rewrite eight in HL. rewrite b40 in HN. pose proof (rg_pos 150 M HM) as MP. pose proof uu_pos as UP.
  assert (HN' : Rabs (LinAlg.dot p0 p0 - LinAlg.dot q0 q0) <= 9000 * (uu * (M * M))). { assert (0 < uu * (M * M)) by (apply Rmult_lt_0_compat; [exact UP|apply Rmult_lt_0_compat; lra]). lra. }
  destruct (sides L bdot HD p q k1 k2 p0 q0 a1 a2 M G HM (axis_unit _ _ S1) (axis_unit _ _ S2) (PropElbow.stored_vtr _ _ _ Sp) (PropElbow.stored_vtr _ _ _ Sq) (PropElbow.axis_vtr _ _ S1) (PropElbow.axis_vtr _ _ S2) G1 HG (gg_le _ _ G1 R1 HR) HL r R1 HR HN' Bp Bq x y be sg BP B1 B2 B3 E SG) as (t1 & t2 & I & S).
  exists t1, t2. split; [exact I|]. eapply Rle_trans; [|exact S]. apply Rmult_le_compat_l; [apply norm_nonneg|].
  pose proof (tol_le M G HM G1 r R1) as TL. replace (bpow radix2 (-41)) with (4096 * uu) by (rewrite uu_val'; cbn; lra).
  assert (0 < uu * M * G) by (apply Rmult_lt_0_compat; [apply Rmult_lt_0_compat; lra|lra]). assert (0 < uu * M) by (apply Rmult_lt_0_compat; lra). lra.
Qed.
(** A solution up to 2^-49 M that is not too close to the plane of the axes is found, unless subproblem1 stops on its own
    assertion: one of the returned pairs moves the vectors to where the solution does. *)
Theorem C107_complete : forall L bdot p q k1 k2 p0 q0 a1 a2 M G r s1 s2 be, In bdot b_dots -> libm_arc_ok L (bpow radix2 (-50)) ->
  bpow radix2 (-150) <= M <= bpow radix2 150 -> stored M p p0 -> stored M q q0 -> stored_axis k1 a1 -> stored_axis k2 a2 ->
  1 <= G -> 1 <= G * (1 - LinAlg.dot a1 a2 * LinAlg.dot a1 a2) -> 1 <= r -> G * G * (r * r) <= bpow radix2 34 -> M <= r * norm (perp a2 p0) -> M <= r * norm (perp a1 q0) ->
  sp2_error p0 q0 a1 a2 s1 s2 <= bpow radix2 (-49) * M -> 0 < be <= 1 -> bpow radix2 (-36) * (G * G) <= be * be -> 4 * eps <= be * be * (M * M) -> be * be * (M * M) <= cone_gap p0 q0 a1 a2 ->
  let tol := sqrt_eps + M * r * (bpow radix2 (-29) + bpow radix2 (-38) * (G * G)) + M * (bpow radix2 (-39) * (G * G) / be) in
  g_subproblem2 (b64_arith L bdot) p q k1 k2 = Err AssertionError \/
  exists x y t1 t2, g_subproblem2 (b64_arith L bdot) p q k1 k2 = Ok [x; y] /\ In (t1, t2) [x; y] /\ bfin t1 /\ bfin t2 /\
    norm (vsub (rotate a2 (bval t2) p0) (rotate a2 s2 p0)) <= tol /\ norm (vsub (rotate a1 (bval t1) (rotate a2 s2 p0)) (rotate a1 s1 (rotate a2 s2 p0))) <= tol.
Proof.
  intros L bdot p q k1 k2 p0 q0 a1 a2 M G r s1 s2 be HD HL HM Sp Sq S1 S2 G1 HG R1 HR Bp Bq SE B0 B1 B2 B3. rewrite eight in HL. rewrite b49 in SE. pose proof (axis_unit _ _ S1) as U1. pose proof (axis_unit _ _ S2) as U2. pose proof (PropElbow.stored_vtr _ _ _ Sp) as Tp. pose proof (PropElbow.stored_vtr _ _ _ Sq) as Tq.
  refine (found L bdot HD p q k1 k2 p0 q0 a1 a2 M G HM U1 U2 Tp Tq (PropElbow.axis_vtr _ _ S1) (PropElbow.axis_vtr _ _ S2) G1 HG (gg_le _ _ G1 R1 HR) HL r R1 HR _ Bp Bq s1 s2 be ltac:(lra) B0 B1 B2 B3).
  unfold sp2_error in SE. set (v := rotate a1 s1 (rotate a2 s2 p0)) in *. assert (NV : norm v = norm p0) by (unfold v; rewrite !turn_norm by assumption; reflexivity).
  replace (LinAlg.dot p0 p0) with (LinAlg.dot v v) by (rewrite <- !norm_sq, NV; reflexivity). rewrite dot_diff. eapply Rle_trans; [apply abs_dot_le|].
  assert (NP : norm p0 <= M) by (destruct Tp as (_ & _ & _ & _ & _ & _ & _ & N); exact N). assert (NQ : norm q0 <= M) by (destruct Tq as (_ & _ & _ & _ & _ & _ & _ & N); exact N).
  assert (norm (vadd v q0) <= 2 * M) by (eapply Rle_trans; [apply norm_triangle|]; lra). apply Rle_trans with (16 * uu * M * (2 * M)); [apply Rmult_le_compat; auto using norm_nonneg|].
  pose proof (rg_pos 150 M HM) as MP. assert (0 < uu * (M * M)) by (apply Rmult_lt_0_compat; [apply uu_pos|apply Rmult_lt_0_compat; lra]). lra.
Qed.
(** About two coordinate axes it is always found. *)
Theorem C107_axes : forall L bdot p q i j p0 q0 M r s1 s2 be, In bdot b_dots -> libm_arc_ok L (bpow radix2 (-50)) -> (i < 3)%nat -> (j < 3)%nat -> i <> j ->
  bpow radix2 (-150) <= M <= bpow radix2 150 -> stored M p p0 -> stored M q q0 ->
  1 <= r -> r * r <= bpow radix2 34 -> M <= r * norm (perp (PropReach.e_axis j) p0) -> M <= r * norm (perp (PropReach.e_axis i) q0) ->
  sp2_error p0 q0 (PropReach.e_axis i) (PropReach.e_axis j) s1 s2 <= bpow radix2 (-49) * M -> 0 < be <= 1 -> bpow radix2 (-36) <= be * be -> 4 * eps <= be * be * (M * M) -> be * be * (M * M) <= cone_gap p0 q0 (PropReach.e_axis i) (PropReach.e_axis j) ->
  let tol := sqrt_eps + M * r * (bpow radix2 (-29) + bpow radix2 (-38)) + M * (bpow radix2 (-39) / be) in
  exists x y t1 t2, g_subproblem2 (b64_arith L bdot) p q (PropB64.b_axis i) (PropB64.b_axis j) = Ok [x; y] /\ In (t1, t2) [x; y] /\ bfin t1 /\ bfin t2 /\
    norm (vsub (rotate (PropReach.e_axis j) (bval t2) p0) (rotate (PropReach.e_axis j) s2 p0)) <= tol /\
    norm (vsub (rotate (PropReach.e_axis i) (bval t1) (rotate (PropReach.e_axis j) s2 p0)) (rotate (PropReach.e_axis i) s1 (rotate (PropReach.e_axis j) s2 p0))) <= tol.
Proof.
  intros L bdot p q i j p0 q0 M r s1 s2 be HD HL Hi Hj IJ HM Sp Sq R1 HR Bp Bq SE B0 B1 B2 B3 tol0.
  assert (D0 : LinAlg.dot (PropReach.e_axis i) (PropReach.e_axis j) = 0) by (destruct i as [|[|[|i]]], j as [|[|[|j]]]; try lia; unfold LinAlg.dot; cbn; ring).
  assert (HG : 1 <= 1 * (1 - LinAlg.dot (PropReach.e_axis i) (PropReach.e_axis j) * LinAlg.dot (PropReach.e_axis i) (PropReach.e_axis j))) by (rewrite D0; lra).
  assert (HR1 : 1 * 1 * (r * r) <= bpow radix2 34) by lra. assert (B1' : bpow radix2 (-36) * (1 * 1) <= be * be) by lra.
  pose proof (PropReach.e_stored i) as S1. pose proof (PropReach.e_stored j) as S2.
  destruct (C107_complete L bdot p q _ _ p0 q0 _ _ M 1 r s1 s2 be HD HL HM Sp Sq S1 S2 (Rle_refl 1) HG R1 HR1 Bp Bq SE B0 B1' B2 B3) as [E | (x & y & t1 & t2 & E & I & F1 & F2 & N2 & N1)].
  - exfalso. rewrite eight in HL. rewrite b49 in SE. pose proof (axis_unit _ _ S1) as U1. pose proof (axis_unit _ _ S2) as U2. pose proof (PropElbow.stored_vtr _ _ _ Sp) as Tp. pose proof (PropElbow.stored_vtr _ _ _ Sq) as Tq.
    refine (not_err L bdot HD p q _ _ p0 q0 _ _ M 1 HM U1 U2 Tp Tq (PropElbow.axis_vtr _ _ S1) (PropElbow.axis_vtr _ _ S2) (Rle_refl 1) HG (gg_le _ _ (Rle_refl 1) R1 HR1) r R1 HR1 _ Bp Bq i j be Hi Hj eq_refl eq_refl eq_refl eq_refl (proj1 B0) B1' B2 B3 E).
    unfold sp2_error in SE. set (v := rotate _ s1 _) in *. assert (NV : norm v = norm p0) by (unfold v; rewrite !turn_norm by assumption; reflexivity).
    replace (LinAlg.dot p0 p0) with (LinAlg.dot v v) by (rewrite <- !norm_sq, NV; reflexivity). rewrite dot_diff. eapply Rle_trans; [apply abs_dot_le|].
    assert (NP : norm p0 <= M) by (destruct Tp as (_ & _ & _ & _ & _ & _ & _ & N); exact N). assert (NQ : norm q0 <= M) by (destruct Tq as (_ & _ & _ & _ & _ & _ & _ & N); exact N).
    assert (norm (vadd v q0) <= 2 * M) by (eapply Rle_trans; [apply norm_triangle|]; lra). apply Rle_trans with (16 * uu * M * (2 * M)); [apply Rmult_le_compat; auto using norm_nonneg; lra|]. pose proof (rg_pos 150 M HM) as MP. assert (0 < uu * (M * M)) by (apply Rmult_lt_0_compat; [apply uu_pos|apply Rmult_lt_0_compat; lra]). lra.
  - replace (1 * 1) with 1 in N1, N2 by ring. rewrite !Rmult_1_r in N1, N2. exists x, y, t1, t2. auto 10.
Qed.
(** Cones that miss by more than the rounding errors give no pair. *)
Theorem C107_none : forall L bdot p q k1 k2 p0 q0 a1 a2 M G, In bdot b_dots ->
  bpow radix2 (-150) <= M <= bpow radix2 150 -> stored M p p0 -> stored M q q0 -> stored_axis k1 a1 -> stored_axis k2 a2 ->
  1 <= G -> 1 <= G * (1 - LinAlg.dot a1 a2 * LinAlg.dot a1 a2) -> G * G <= bpow radix2 34 ->
  cone_gap p0 q0 a1 a2 < - (bpow radix2 (-39) * (M * M) * (G * G) + eps) -> g_subproblem2 (b64_arith L bdot) p q k1 k2 = Ok [].
Proof.
  intros L bdot p q k1 k2 p0 q0 a1 a2 M G HD HM Sp Sq S1 S2 G1 HG HGB B.
  refine (missed L bdot HD p q k1 k2 p0 q0 a1 a2 M G HM (axis_unit _ _ S1) (axis_unit _ _ S2) (PropElbow.stored_vtr _ _ _ Sp) (PropElbow.stored_vtr _ _ _ Sq) (PropElbow.axis_vtr _ _ S1) (PropElbow.axis_vtr _ _ S2) G1 HG HGB _).
  eapply Rlt_le_trans; [exact B|]. rewrite b39. pose proof uu_pos. pose proof (rg_pos 150 M HM). assert (0 < uu * (M * M) * (G * G)) by (apply Rmult_lt_0_compat; [apply Rmult_lt_0_compat; [lra|apply Rmult_lt_0_compat; lra]|apply Rmult_lt_0_compat; lra]). lra.
Qed.
(** The only exception is subproblem0's AssertionError. *)
Theorem C107_error : forall L bdot p q k1 k2 e, g_subproblem2 (b64_arith L bdot) p q k1 k2 = Err e -> e = AssertionError.
Proof.
  intros L bdot p q k1 k2 e. rewrite sub2_list. cbv zeta. destruct (b_lt _ _); [discriminate|]. destruct (b_lt _ (b_lit 0 1)); [discriminate|].
  assert (ER : forall a b c (f : exn), g_subproblem1 (b64_arith L bdot) a b c = Err f -> f = AssertionError) by (intros a b c f; apply C89_error).
  destruct (b_lt _ _).
  - destruct (g_subproblem1 _ k2 p _) eqn:E2; cbn [bind]; [|intros [= <-]; exact (ER _ _ _ _ E2)]. destruct (g_subproblem1 _ k1 q _) eqn:E1; cbn [bind]; [discriminate|intros [= <-]; exact (ER _ _ _ _ E1)].
  - do 4 (match goal with |- bind ?x _ = Err _ -> _ => destruct x as [?|f] eqn:?E; cbn [bind]; [|intros Q; assert (X : f = AssertionError) by (eapply ER; eassumption); congruence] end). discriminate.
Qed.
(** Over the reals it is the exact model. *)
Lemma real_dot2 a b c d : ndot real_arith [a; b] [c; d] = a * c + b * d.
Proof. cbn [ndot real_arith]. unfold dot_R. cbn [combine fold_right fst snd]. PropReal.rring. Qed.
Lemma real_comb k1 k2 x a0 a1 g : l_comb real_arith (PropReal.lst k1) (PropReal.lst k2) (PropReal.lst x) a0 a1 g = PropReal.lst (vadd (vadd (vscale a0 k1) (vscale a1 k2)) (vscale g x)).
Proof. unfold l_comb, PropReal.lst. cbn [combine map fst snd vx vy vz vadd vscale]. cbn [ndot real_arith]. unfold dot_R. cbn [combine fold_right fst snd]. repeat (apply f_equal2; [PropReal.rring|]). reflexivity. Qed.
Theorem C107_reals : forall p q k1 k2 l, subproblem2 p q k1 k2 = Ok l -> g_subproblem2 real_arith (PropReal.lst p) (PropReal.lst q) (PropReal.lst k1) (PropReal.lst k2) = Ok l.
Proof.
  intros p q k1 k2 l. unfold subproblem2, g_subproblem2. cbv zeta. rewrite !PropReal.real_dot, !PropReal.real_lcross, !PropReal.real_norm, !PropReal.real_eps, !real_dot2, !real_comb.
  unfold none1, nzero. cbn [num nlt nabs nsub nmul ndiv nneg nsqrt nlit real_arith].
  assert (L1 : 1 / 1 = 1) by field. assert (L0 : 0 / 1 = 0) by field. assert (L2 : 2 / 1 = 2) by field. rewrite L1, L0, L2.
  set (K := LinAlg.dot k1 k2). set (pk := LinAlg.dot p k2). set (qk := LinAlg.dot q k1).
  assert (E0 : K * pk + - (1) * qk = K * pk - qk) by ring. assert (E1 : - (1) * pk + K * qk = - pk + K * qk) by ring. rewrite E0, E1.
  destruct (Rltb (Rabs (1 - K * K)) eps); [auto|]. match goal with |- context [Rltb (if Rltb ?a eps then 0 else ?b) 0] => set (bb := if Rltb a eps then 0 else b) end. destruct (Rltb bb 0); [auto|]. destruct (Reqb _ 0); [discriminate|].
  match goal with |- context [Rltb ?a eps] => destruct (Rltb a eps) end.
  - destruct (subproblem1 k2 p _) eqn:E2; cbn [bind]; [|discriminate]. destruct (subproblem1 k1 q _) eqn:E3; cbn [bind]; [|discriminate]. rewrite (PropReal.C79_reals _ _ _ _ E2). cbn [bind]. rewrite (PropReal.C79_reals _ _ _ _ E3). cbn [bind]. auto.
  - destruct (subproblem1 q _ k1) eqn:E2; cbn [bind]; [|discriminate]. rewrite (PropReal.C79_reals _ _ _ _ E2). cbn [bind].
    match goal with |- context [subproblem1 q ?c k1] => destruct (subproblem1 q c k1) eqn:E3; cbn [bind]; [|discriminate]; rewrite (PropReal.C79_reals _ _ _ _ E3); cbn [bind] end.
    match goal with |- context [subproblem1 p ?c k2] => destruct (subproblem1 p c k2) eqn:E4; cbn [bind]; [|discriminate]; rewrite (PropReal.C79_reals _ _ _ _ E4); cbn [bind] end.
    match goal with |- context [subproblem1 p ?c k2] => destruct (subproblem1 p c k2) eqn:E5; cbn [bind]; [|discriminate]; rewrite (PropReal.C79_reals _ _ _ _ E5); cbn [bind] end.
    auto.
Qed.
(** Where the two circles only touch there is one solution, and looking for it raises (the arguments of subproblem1 are in the
    wrong order on that branch): in every summation order and for every math library. *)
Theorem C107_touching_refuted : exists p q k1 k2 p0 q0 a1 a2 s1 s2, stored 2 p p0 /\ stored 2 q q0 /\ stored_axis k1 a1 /\ stored_axis k2 a2 /\ LinAlg.dot a1 a2 = 0 /\
  2 <= 2 * norm (perp a2 p0) /\ 2 <= 2 * norm (perp a1 q0) /\ sp2_error p0 q0 a1 a2 s1 s2 = 0 /\
  forall L bdot, In bdot b_dots -> g_subproblem2 (b64_arith L bdot) p q k1 k2 = Err AssertionError.
Proof.
  exists (PropB64.b_vec [0;1;1]%Z), (PropB64.b_vec [1;1;0]%Z), (PropB64.b_axis 0), (PropB64.b_axis 1), (V3 0 1 1), (V3 1 1 0), (PropReach.e_axis 0), (PropReach.e_axis 1), 0, (PI / 2).
  split; [apply vec_val; [ofz | lra | unfold LinAlg.dot; cbn; lra]|]. split; [apply vec_val; [ofz | lra | unfold LinAlg.dot; cbn; lra]|].
  split; [apply PropReach.e_stored|]. split; [apply PropReach.e_stored|]. split; [unfold LinAlg.dot; cbn; ring|].
  assert (N1 : forall v, LinAlg.dot v v = 1 -> norm v = 1) by (intros v E; unfold norm, norm2; rewrite E; apply sqrt_1).
  split; [rewrite N1; [lra|]; unfold perp, vsub, vscale, LinAlg.dot; cbn; ring|]. split; [rewrite N1; [lra|]; unfold perp, vsub, vscale, LinAlg.dot; cbn; ring|].
  split. { unfold sp2_error. replace (vsub _ _) with vzero; [apply norm_vzero|]. unfold rotate, PropReach.e_axis. rewrite cos_PI2, sin_PI2, cos_0, sin_0. unfold vsub, vadd, vscale, cross, LinAlg.dot, vzero. cbn [vx vy vz]. f_equal; ring. }
  intros L bdot HD. cbn [In b_dots] in HD. repeat (destruct HD as [<- | HD]; [vm_compute; reflexivity|]). contradiction.
Qed.

(* ---- (1, 2, 2) to (2, 1, 2) about the first two axes ---- *)
Definition ep := PropB64.b_vec [1;2;2]%Z.
Definition eq' := PropB64.b_vec [2;1;2]%Z.
Lemma ex_stored : stored 4 ep (V3 1 2 2) /\ stored 4 eq' (V3 2 1 2).
Proof. split; (apply vec_val; [ofz | lra | unfold LinAlg.dot; cbn; lra]). Qed.
Lemma ex_far : 4 <= 2 * norm (perp (PropReach.e_axis 1) (V3 1 2 2)) /\ 4 <= 2 * norm (perp (PropReach.e_axis 0) (V3 2 1 2)).
Proof.
  assert (N2 : forall v, LinAlg.dot v v = 5 -> 4 <= 2 * norm v) by (intros v E; unfold norm, norm2; rewrite E; assert (sqrt 4 <= sqrt 5) by (apply sqrt_le_1_alt; lra); replace 4 with (2 * 2) in H by ring; rewrite sqrt_square in H by lra; lra).
  split; apply N2; unfold perp, vsub, vscale, LinAlg.dot; cbn; ring.
Qed.
Lemma ex_solution : exists s, sp2_error (V3 1 2 2) (V3 2 1 2) (PropReach.e_axis 0) (PropReach.e_axis 1) s s = 0 /\ cos s = 4 / 5.
Proof.
  destruct (unit_circle_angle (3 / 5) (4 / 5)) as (s & C & S); [field|]. exists s. split; [|exact C]. unfold sp2_error. replace (vsub _ _) with vzero; [apply norm_vzero|].
  unfold rotate, PropReach.e_axis. rewrite C, S. unfold vsub, vadd, vscale, cross, LinAlg.dot, vzero. cbn [vx vy vz]. f_equal; field.
Qed.
Lemma ex_gap : cone_gap (V3 1 2 2) (V3 2 1 2) (PropReach.e_axis 0) (PropReach.e_axis 1) = 1.
Proof. unfold cone_gap, LinAlg.dot. cbn [vx vy vz PropReach.e_axis]. field. Qed.
Lemma ex_mod : bpow radix2 (-150) <= 4 <= bpow radix2 150.
Proof. change 4 with (bpow radix2 2). split; apply bpow_le; lia. Qed.
Lemma ex_hyp : 4 * eps <= 1 / 4 * (1 / 4) * (4 * 4) /\ bpow radix2 (-36) <= 1 / 4 * (1 / 4).
Proof. split; [unfold eps; lra|cbn; lra]. Qed.
Example C107_axes_ex : forall bdot, In bdot b_dots -> exists x y t1 t2, g_subproblem2 (b64_arith arc_libm bdot) ep eq' (PropB64.b_axis 0) (PropB64.b_axis 1) = Ok [x; y] /\ In (t1, t2) [x; y] /\
  norm (vsub (rotate (PropReach.e_axis 1) (bval t2) (V3 1 2 2)) (V3 2 2 1)) <= bpow radix2 (-24) /\
  sp2_error (V3 1 2 2) (V3 2 1 2) (PropReach.e_axis 0) (PropReach.e_axis 1) (bval t1) (bval t2) <= bpow radix2 (-23).
Proof.
  intros bdot HD. destruct ex_stored as [Sp Sq]. destruct ex_far as [B1 B2]. destruct ex_solution as (s & E & C). destruct ex_hyp as [H1 H2].
  assert (SE : sp2_error (V3 1 2 2) (V3 2 1 2) (PropReach.e_axis 0) (PropReach.e_axis 1) s s <= bpow radix2 (-49) * 4) by (rewrite E; pose proof (bpow_ge_0 radix2 (-49)); lra).
  assert (R2 : 2 * 2 <= bpow radix2 34) by (cbn; lra). assert (GP : 1 / 4 * (1 / 4) * (4 * 4) <= cone_gap (V3 1 2 2) (V3 2 1 2) (PropReach.e_axis 0) (PropReach.e_axis 1)) by (rewrite ex_gap; lra).
  destruct (C107_axes arc_libm bdot ep eq' 0 1 (V3 1 2 2) (V3 2 1 2) 4 2 s s (1 / 4) HD arc_libm_ok ltac:(lia) ltac:(lia) ltac:(lia) ex_mod Sp Sq ltac:(lra) R2 B1 B2 SE ltac:(lra) H2 H1 GP) as (x & y & t1 & t2 & ER & I & F1 & F2 & N2 & N1).
  exists x, y, t1, t2. split; [exact ER|]. split; [exact I|]. assert (SQ : sqrt_eps = bpow radix2 (-26)) by (unfold sqrt_eps; cbn; lra). rewrite SQ in *.
  split.
  - replace (V3 2 2 1) with (rotate (PropReach.e_axis 1) s (V3 1 2 2)); [eapply Rle_trans; [exact N2|cbn; lra]|].
    assert (SS : sin s = 3 / 5). { unfold sp2_error in E. apply norm_zero in E. unfold rotate, PropReach.e_axis, vsub, vadd, vscale, cross, LinAlg.dot, vzero in E. cbn [vx vy vz] in E. injection E as E1 E2 E3. rewrite C in E1. lra. }
    unfold rotate, PropReach.e_axis. rewrite C, SS. unfold vadd, vscale, cross, LinAlg.dot. cbn [vx vy vz]. f_equal; field.
  - assert (D0 : LinAlg.dot (PropReach.e_axis 0) (PropReach.e_axis 1) = 0) by (unfold LinAlg.dot; cbn; ring).
    destruct (C107_residual arc_libm bdot ep eq' _ _ (V3 1 2 2) (V3 2 1 2) _ _ 4 1 2 x y t1 t2 HD arc_libm_ok ex_mod Sp Sq (PropReach.e_stored 0) (PropReach.e_stored 1)) as (_ & _ & _ & RS); try assumption; try lra.
    + replace (LinAlg.dot (V3 1 2 2) (V3 1 2 2) - LinAlg.dot (V3 2 1 2) (V3 2 1 2)) with 0 by (unfold LinAlg.dot; cbn; ring). rewrite Rabs_R0. pose proof (bpow_ge_0 radix2 (-40)). lra.
    + rewrite D0. lra.
    + eapply Rle_trans; [exact RS|]. rewrite SQ. cbn. lra.
Qed.
(** here the two pairs reach the heights 1 and -1 about the plane of the axes *)
Example C107_sides_ex : forall bdot, In bdot b_dots -> exists t1 t2 t3 t4 x y, g_subproblem2 (b64_arith arc_libm bdot) ep eq' (PropB64.b_axis 0) (PropB64.b_axis 1) = Ok [x; y] /\ In (t1, t2) [x; y] /\ In (t3, t4) [x; y] /\
  9 / 10 <= vz (rotate (PropReach.e_axis 1) (bval t2) (V3 1 2 2)) /\ vz (rotate (PropReach.e_axis 1) (bval t4) (V3 1 2 2)) <= - (9 / 10).
Proof.
  intros bdot HD. destruct (C107_axes_ex bdot HD) as (x & y & _ & _ & ER & _). destruct ex_stored as [Sp Sq]. destruct ex_far as [B1 B2]. destruct ex_hyp as [H1 H2].
  assert (D0 : LinAlg.dot (PropReach.e_axis 0) (PropReach.e_axis 1) = 0) by (unfold LinAlg.dot; cbn; ring). assert (SQ : sqrt_eps = bpow radix2 (-26)) by (unfold sqrt_eps; cbn; lra).
  assert (CR : cross (PropReach.e_axis 0) (PropReach.e_axis 1) = V3 0 0 1) by (unfold cross; cbn [vx vy vz PropReach.e_axis]; f_equal; ring).
  assert (N1 : norm (V3 0 0 1) = 1) by (unfold norm, norm2, LinAlg.dot; cbn [vx vy vz]; replace (0 * 0 + 0 * 0 + 1 * 1) with 1 by ring; apply sqrt_1).
  assert (F : forall sg, sg = 1 \/ sg = -1 -> exists t1 t2, In (t1, t2) [x; y] /\ 9 / 10 <= sg * vz (rotate (PropReach.e_axis 1) (bval t2) (V3 1 2 2))).
  { intros sg SG. destruct (C107_sides arc_libm bdot ep eq' _ _ (V3 1 2 2) (V3 2 1 2) _ _ 4 1 2 (1 / 4) x y sg HD arc_libm_ok ex_mod Sp Sq (PropReach.e_stored 0) (PropReach.e_stored 1)) as (t1 & t2 & I & S); try assumption; try lra.
    - replace (LinAlg.dot (V3 1 2 2) (V3 1 2 2) - LinAlg.dot (V3 2 1 2) (V3 2 1 2)) with 0 by (unfold LinAlg.dot; cbn; ring). rewrite Rabs_R0. pose proof (bpow_ge_0 radix2 (-40)). lra.
    - rewrite D0. lra.
    - cbn. lra.
    - rewrite ex_gap. lra.
    - exists t1, t2. split; [exact I|]. rewrite CR, N1, SQ in S. assert (Z : forall v, LinAlg.dot v (V3 0 0 1) = vz v) by (intros v; unfold LinAlg.dot; cbn [vx vy vz]; ring). rewrite Z in S.
      assert (B : bpow radix2 (-26) + 4 * 2 * (bpow radix2 (-29) + bpow radix2 (-38) * (1 * 1)) + bpow radix2 (-41) * (4 * 1) <= 1 / 100) by (cbn; lra). lra. }
  destruct (F 1 (or_introl eq_refl)) as (t1 & t2 & I1 & P1). destruct (F (-1) (or_intror eq_refl)) as (t3 & t4 & I2 & P2). exists t1, t2, t3, t4, x, y. split; [exact ER|]. split; [exact I1|]. split; [exact I2|]. split; lra.
Qed.
(** about axes that are not perpendicular: the first axis and (3/5, 4/5, 0) *)
Definition k34 : list b64 := [b_lit 3 5; b_lit 4 5; b_ofZ 0].
Lemma k34_stored : stored_axis k34 (V3 (3 / 5) (4 / 5) 0).
Proof.
  split; [unfold unit3, LinAlg.dot; cbn; field|]. do 3 eexists. split; [reflexivity|]. do 3 (split; [reflexivity|]). cbn [vx vy vz].
  assert (Z : bval (b_ofZ 0) = 0) by (vm_compute; lra). rewrite Z.
  split; [apply Rabs_le; split; vm_compute; lra|]. split; [apply Rabs_le; split; vm_compute; lra|]. rewrite Rminus_diag_eq, Rabs_R0 by reflexivity. apply bpow_ge_0.
Qed.
Definition e0p := PropB64.b_vec [2;1;2]%Z.
Definition is_two {Y} (r : out (list Y)) : bool := match r with Ok [_; _] => true | _ => false end.
Lemma run_two : forall L bdot, In bdot b_dots -> is_two (g_subproblem2 (b64_arith L bdot) e0p ep (PropB64.b_axis 0) k34) = true.
Proof. intros L bdot HD. cbn [In b_dots] in HD. repeat (destruct HD as [<- | HD]; [vm_compute; reflexivity|]). contradiction. Qed.
Example C107_residual_ex : forall bdot, In bdot b_dots -> exists x y, g_subproblem2 (b64_arith arc_libm bdot) e0p ep (PropB64.b_axis 0) k34 = Ok [x; y] /\
  forall t1 t2, In (t1, t2) [x; y] -> sp2_error (V3 2 1 2) (V3 1 2 2) (PropReach.e_axis 0) (V3 (3 / 5) (4 / 5) 0) (bval t1) (bval t2) <= bpow radix2 (-23).
Proof.
  intros bdot HD. destruct ex_stored as [Sp Sq].
  assert (RUN : exists x y, g_subproblem2 (b64_arith arc_libm bdot) e0p ep (PropB64.b_axis 0) k34 = Ok [x; y]).
  { generalize (run_two arc_libm bdot HD). destruct (g_subproblem2 (b64_arith arc_libm bdot) e0p ep (PropB64.b_axis 0) k34) as [[|x [|y [|? ?]]]|]; cbn [is_two]; try discriminate. intros _. exists x, y. reflexivity. }
  destruct RUN as (x & y & ER). exists x, y. split; [exact ER|]. intros t1 t2 I.
  assert (SQ : sqrt_eps = bpow radix2 (-26)) by (unfold sqrt_eps; cbn; lra).
  assert (D0 : LinAlg.dot (PropReach.e_axis 0) (V3 (3 / 5) (4 / 5) 0) = 3 / 5) by (unfold LinAlg.dot; cbn; field).
  assert (N2 : forall v, 4 <= LinAlg.dot v v -> 4 <= 2 * norm v) by (intros v E; unfold norm, norm2; assert (sqrt 4 <= sqrt (LinAlg.dot v v)) by (apply sqrt_le_1_alt; lra); replace 4 with (2 * 2) in H by ring; rewrite sqrt_square in H by lra; lra).
  destruct (C107_residual arc_libm bdot e0p ep _ _ (V3 2 1 2) (V3 1 2 2) _ _ 4 2 2 x y t1 t2 HD arc_libm_ok ex_mod Sq Sp (PropReach.e_stored 0) k34_stored) as (_ & _ & _ & RS); try assumption; try lra.
  - replace (LinAlg.dot (V3 2 1 2) (V3 2 1 2) - LinAlg.dot (V3 1 2 2) (V3 1 2 2)) with 0 by (unfold LinAlg.dot; cbn; ring). rewrite Rabs_R0. pose proof (bpow_ge_0 radix2 (-40)). lra.
  - rewrite D0. lra.
  - cbn. lra.
  - apply N2. unfold perp, vsub, vscale, LinAlg.dot. cbn. lra.
  - apply N2. unfold perp, vsub, vscale, LinAlg.dot. cbn. lra.
  - eapply Rle_trans; [exact RS|]. rewrite SQ. cbn. lra.
Qed.
Example C107_none_ex : forall L bdot, In bdot b_dots -> g_subproblem2 (b64_arith L bdot) (PropB64.b_vec [1;2;2]%Z) (PropB64.b_vec [3;0;0]%Z) (PropB64.b_axis 0) (PropB64.b_axis 1) = Ok [].
Proof.
  intros L bdot HD. destruct ex_stored as [Sp _]. assert (Sq : stored 4 (PropB64.b_vec [3;0;0]%Z) (V3 3 0 0)) by (apply vec_val; [ofz | lra | unfold LinAlg.dot; cbn; lra]).
  assert (D0 : LinAlg.dot (PropReach.e_axis 0) (PropReach.e_axis 1) = 0) by (unfold LinAlg.dot; cbn; ring).
  apply (C107_none L bdot _ _ _ _ (V3 1 2 2) (V3 3 0 0) _ _ 4 1 HD ex_mod Sp Sq (PropReach.e_stored 0) (PropReach.e_stored 1)); [lra|rewrite D0; lra|cbn; lra|].
  assert (GP : cone_gap (V3 1 2 2) (V3 3 0 0) (PropReach.e_axis 0) (PropReach.e_axis 1) = -4) by (unfold cone_gap, LinAlg.dot; cbn [vx vy vz PropReach.e_axis]; field). rewrite GP. unfold eps. cbn. lra.
Qed.
Print Assumptions C107_residual.
Print Assumptions C107_sides.
Print Assumptions C107_two.
Print Assumptions C107_complete.
Print Assumptions C107_axes.
Print Assumptions C107_none.
Print Assumptions C107_error.
Print Assumptions C107_reals.
Print Assumptions C107_touching_refuted.
