(** Facts about the convergence test of iterative_invkin in binary64. *)
From Coq Require Import Reals ZArith List Bool Lra Lia Psatz.
From Flocq Require Import Core.Core IEEE754.BinarySingleNaN.
From Verif Require Import LinAlg RealAux Py FactsReal FactsLinAlg ModelRot SpecRot FactsRot FactsRot2 FactsNorm SpecSub FactsSub ModelTransform ModelRobot ModelKin
  ModelFloat ModelFloat2 ModelFloat3 ModelFloat7 SpecRound FactsRound FactsB64 FactsExact PropNorm FactsTrack SpecArc SpecArc2 FactsAngle FactsSumsq PropElbow PropSlerp PropPi PropAngle PropR2rot SpecEquiv.
Import ListNotations.
Open Scope R_scope.
Local Notation near := SpecArc2.near.
Local Notation small := SpecEquiv.small.

Lemma abs_lt x y : bfin y -> b_lt (Babs x) y = true -> bfin x /\ Rabs (bval x) < bval y.
Proof.
  intros Fy H. assert (Fx : bfin x).
  { destruct x as [sx|sx| |sx mx ex Bx]; try reflexivity; exfalso; destruct y as [sy|sy| |sy my ey By]; discriminate. }
  split; [exact Fx|]. assert (FA : bfin (Babs x)) by (unfold bfin; rewrite is_finite_Babs; exact Fx).
  apply (b_lt_val _ _ FA Fy) in H. unfold bval in *. rewrite B2R_Babs in H. exact H.
Qed.

(* ---- half angles ---- *)
Lemma half_pos t : 0 <= t <= PI -> 0 <= sin (t / 2) <= 1 /\ 0 <= cos (t / 2) <= 1 /\ sin t = 2 * sin (t / 2) * cos (t / 2) /\
  cos t = 1 - 2 * (sin (t / 2) * sin (t / 2)) /\ sin (t / 2) * sin (t / 2) + cos (t / 2) * cos (t / 2) = 1.
Proof.
  intros H. pose proof PI_pos. pose proof (sin_ge_0 (t / 2) ltac:(lra) ltac:(lra)). pose proof (cos_ge_0 (t / 2) ltac:(lra) ltac:(lra)).
  pose proof (SIN_bound (t / 2)). pose proof (COS_bound (t / 2)). pose proof (sin_2a (t / 2)) as A. pose proof (cos_2a_sin (t / 2)) as B. pose proof (sin2_cos2 (t / 2)) as C. unfold Rsqr in C.
  replace (2 * (t / 2)) with t in * by field. repeat split; try lra.
Qed.
Lemma half_small t e : 0 <= t <= PI -> 0 <= cos t -> sin t <= e -> sin (t / 2) <= 3 / 4 * e.
Proof.
  intros H C S. destruct (half_pos t H) as (P1 & P2 & E1 & E2 & E3). set (s := sin (t / 2)) in *. set (c := cos (t / 2)) in *.
  assert (7 / 10 <= c) by nra. nra.
Qed.
Lemma entries_lt a (v : vec3) : norm v <= a -> Rabs (vx v) <= a /\ Rabs (vy v) <= a /\ Rabs (vz v) <= a.
Proof. intros H. destruct (entry_le v) as (A & B & C). repeat split; lra. Qed.

Section Turn.
Context (L : libm) (bdot : list b64 -> list b64 -> b64) (HD : In bdot b_dots).
Context (HL : libm_ok L (bpow radix2 (-52))) (HA : libm_atan2_ok L (bpow radix2 (-50))).
Local Notation A := (b64_arith L bdot).

(** the vector that is compared with the tolerance *)
Definition turn_vector (M : m3 b64) : v3 b64 :=
  let r := g_R2rot A M in v3map (b_mul (m_sin L (b_div (snd r) (b_lit 2 1)))) (fst r).

(** the generic branch, one entry *)
Lemma turn_entry (k' s sn th : b64) kx t e n tol :
  0 <= t <= PI -> bpow radix2 (-20) <= sin t -> 0 <= e <= bpow radix2 (-29) -> 0 < tol <= 1 / 2 -> Rabs kx <= 1 ->
  bfin th -> Rabs (bval th - t) <= 13 * e + bpow radix2 (-44) ->
  Rabs (bval k' - kx) <= n -> n <= (6 * e + bpow radix2 (-45)) / sin t ->
  sn = m_sin L (b_div th (b_lit 2 1)) -> s = b_mul sn k' -> bfin s -> Rabs (bval s) < tol ->
  (-3 / 4 <= cos t -> Rabs (sin (t / 2) * kx) < tol + 16 * e + bpow radix2 (-42)) /\ (cos t < -3 / 4 -> Rabs kx <= 55 / 100).
Proof.
  intros Ht Hs He Htol Hk Fth Eth Ek Hn Esn Es Fs Bs.
  destruct (half_pos t Ht) as (P1 & P2 & E1 & E2 & E3). set (a := sin (t / 2)) in *. set (c := cos (t / 2)) in *.
  assert (P20 : bpow radix2 (-20) = 1 / 1048576) by (cbn; lra). assert (P29 : bpow radix2 (-29) = 1 / 536870912) by (cbn; lra).
  assert (P44 : bpow radix2 (-44) = 512 * uu) by (rewrite uu_val'; cbn; lra). assert (P45 : bpow radix2 (-45) = 256 * uu) by (rewrite uu_val'; cbn; lra).
  assert (P42 : bpow radix2 (-42) = 2048 * uu) by (rewrite uu_val'; cbn; lra). assert (P52 : bpow radix2 (-52) = 2 * uu) by (rewrite uu_val'; cbn; lra).
  rewrite P20 in Hs. rewrite P29 in He. rewrite P44 in Eth. rewrite P45 in Hn. rewrite P42.
  pose proof uu_pos as U. pose proof uu_val' as UV. pose proof ee_le_uu as EU. pose proof pi_hi as PH.
  assert (UB : uu <= 1 / 1000000000000000) by (rewrite UV; lra).
  assert (V2 : bval (b_lit 2 1) = 2) by (vm_compute; lra).
  assert (TB : -1 <= bval th <= 4) by (apply Rabs_le_inv in Eth; lra).
  destruct (div_range th (b_lit 2 1) Fth ltac:(rewrite V2; lra)) as [Fh Vh]; [apply rg_16; rewrite V2; lra|]. rewrite V2 in Vh.
  assert (Eh : Rabs (bval (b_div th (b_lit 2 1)) - t / 2) <= 13 / 2 * e + 260 * uu).
  { rewrite Vh. pose proof (rnd_err (bval th / 2)) as RE. assert (uu * Rabs (bval th / 2) <= uu * 2) by (apply Rmult_le_compat_l; [lra | apply Rabs_le; lra]).
    apply Rabs_le_inv in RE. apply Rabs_le_inv in Eth. apply Rabs_le. lra. }
  subst s. destruct (mul_fin _ _ Fs) as [Fsn Fk]. rewrite Esn in Fsn. destruct (proj1 HL _ Fsn) as [_ Esin]. rewrite <- Esn in *. rewrite P52 in Esin.
  pose proof (sin_lip (bval (b_div th (b_lit 2 1))) (t / 2)) as SL. fold a in SL.
  assert (Ea : Rabs (bval sn - a) <= 13 / 2 * e + 262 * uu).
  { replace (bval sn - a) with ((bval sn - sin (bval (b_div th (b_lit 2 1)))) + (sin (bval (b_div th (b_lit 2 1))) - a)) by ring. eapply Rle_trans; [apply Rabs_triang|]. lra. }
  set (st := sin t) in *. assert (S0 : 0 < st) by lra.
  assert (NB : n <= 12 / 1000).
  { eapply Rle_trans; [exact Hn|]. apply Rmult_le_reg_r with st; [lra|]. unfold Rdiv. rewrite Rmult_assoc, Rinv_l, Rmult_1_r by lra.
    apply Rle_trans with (12 / 1000 * (1 / 1048576)); [lra | apply Rmult_le_compat_l; lra]. }
  assert (KB : Rabs (bval k') <= 1012 / 1000) by (apply Rabs_le_inv in Ek; apply Rabs_le_inv in Hk; apply Rabs_le; lra).
  assert (SB : Rabs (bval sn) <= 101 / 100) by (apply Rabs_le_inv in Ea; apply Rabs_le; lra).
  pose proof (rnd_err (bval sn * bval k')) as RE. rewrite <- (mul_val _ _ Fs) in RE.
  assert (MB : Rabs (bval sn * bval k') <= 2). { rewrite Rabs_mult. apply Rle_trans with (101 / 100 * (1012 / 1000)); [apply Rmult_le_compat; try apply Rabs_pos; assumption | lra]. }
  assert (RM : uu * Rabs (bval sn * bval k') <= uu * 2) by (apply Rmult_le_compat_l; lra).
  set (v := bval (b_mul sn k')) in *. assert (RE2 : Rabs (bval sn * bval k' - v) <= 3 * uu) by (apply Rabs_le_inv in RE; apply Rabs_le; lra). clear RE RM.
  split; intros C.
  - assert (C1 : 35 / 100 <= c) by nra.
    assert (AN : a * n <= 1429 / 1000 * (6 * e + 256 * uu)).
    { apply Rle_trans with (a * ((6 * e + 256 * uu) / st)); [apply Rmult_le_compat_l; lra|]. rewrite E1.
      destruct (Req_dec a 0) as [Z|Z]; [rewrite Z, Rmult_0_l; apply Rmult_le_pos; lra|].
      replace (a * ((6 * e + 256 * uu) / (2 * a * c))) with ((6 * e + 256 * uu) * / (2 * c)) by (field; split; lra).
      rewrite Rmult_comm. apply Rmult_le_compat_r; [lra|]. apply Rmult_le_reg_r with (2 * c); [lra|]. rewrite Rinv_l by lra. nra. }
    assert (D1 : Rabs (a * (bval k' - kx)) <= a * n). { rewrite Rabs_mult, (Rabs_right a) by lra. apply Rmult_le_compat_l; lra. }
    assert (D2 : Rabs ((bval sn - a) * bval k') <= (13 / 2 * e + 262 * uu) * (1012 / 1000)). { rewrite Rabs_mult. apply Rmult_le_compat; try apply Rabs_pos; assumption. }
    replace (a * kx) with (v + (bval sn * bval k' - v) - (bval sn - a) * bval k' - a * (bval k' - kx)) by ring.
    apply Rabs_le_inv in D1. apply Rabs_le_inv in D2. apply Rabs_le_inv in RE2. apply Rabs_def2 in Bs. apply Rabs_def1; lra.
  - assert (A1 : 935 / 1000 <= a) by nra.
    assert (S1 : 9349 / 10000 <= bval sn) by (apply Rabs_le_inv in Ea; lra).
    assert (K1 : Rabs (bval k') <= 5349 / 10000).
    { apply Rmult_le_reg_l with (9349 / 10000); [lra|]. apply Rle_trans with (Rabs (bval sn * bval k')).
      - rewrite Rabs_mult, (Rabs_right (bval sn)) by lra. apply Rmult_le_compat_r; [apply Rabs_pos | lra].
      - apply Rabs_le_inv in RE2. apply Rabs_def2 in Bs. apply Rabs_le. lra. }
    apply Rabs_le_inv in K1. apply Rabs_le_inv in Ek. apply Rabs_le. lra.
Qed.

Lemma R2rot_half (G : arith) (M : m3 (num G)) :
  let B x := nsqrt G (nmul G (ndiv G (none1 G) (nlit G 2 1)) (nadd G x (none1 G))) in
  let R1 := v3zip (v3zip (nsub G)) M (v3cols M) in
  nlt G (ndiv G (l_norm G [w0 (w0 R1); w1 (w0 R1); w2 (w0 R1); w0 (w1 R1); w1 (w1 R1); w2 (w1 R1); w0 (w2 R1); w1 (w2 R1); w2 (w2 R1)]) (nsqrt G (nlit G 8 1))) (nlit G 1 1000000) = true ->
  nlt G (nzero G) (ndiv G (nsub G (nadd G (nadd G (w0 (w0 M)) (w1 (w1 M))) (w2 (w2 M))) (none1 G)) (nlit G 2 1)) = false ->
  let r := g_R2rot G M in
  snd r = npi G /\ w0 (fst r) = B (w0 (w0 M)) /\
  (nlt G (nlit G 1 1000000) (nabs G (B (w0 (w0 M)))) = true \/
   w1 (fst r) = B (w1 (w1 M)) /\ (nlt G (nlit G 1 1000000) (nabs G (B (w1 (w1 M)))) = true \/ w2 (fst r) = B (w2 (w2 M)))).
Proof.
  intros B R1 H1 H2 r. unfold r, g_R2rot. fold R1. rewrite H1, H2.
  change (w0 (w0 (v3zip (v3zip (fun x i => nmul G (ndiv G (none1 G) (nlit G 2 1)) (nadd G x i))) M (g_I3 G)))) with (nmul G (ndiv G (none1 G) (nlit G 2 1)) (nadd G (w0 (w0 M)) (none1 G))).
  change (w1 (w1 (v3zip (v3zip (fun x i => nmul G (ndiv G (none1 G) (nlit G 2 1)) (nadd G x i))) M (g_I3 G)))) with (nmul G (ndiv G (none1 G) (nlit G 2 1)) (nadd G (w1 (w1 M)) (none1 G))).
  change (w2 (w2 (v3zip (v3zip (fun x i => nmul G (ndiv G (none1 G) (nlit G 2 1)) (nadd G x i))) M (g_I3 G)))) with (nmul G (ndiv G (none1 G) (nlit G 2 1)) (nadd G (w2 (w2 M)) (none1 G))).
  fold (B (w0 (w0 M))) (B (w1 (w1 M))) (B (w2 (w2 M))).
  destruct (nlt G (nlit G 1 1000000) (nabs G (B (w0 (w0 M))))) ; [split; [reflexivity|]; split; [reflexivity|]; left; reflexivity|].
  destruct (nlt G (nlit G 1 1000000) (nabs G (B (w1 (w1 M))))); (split; [reflexivity|]; split; [reflexivity|]; right; split; [reflexivity|]); [left | right]; reflexivity.
Qed.
Lemma read_half (M : m3 b64) :
  let B x := b_sqrt (b_mul (b_div (b_lit 1 1) (b_lit 2 1)) (b_add x (b_lit 1 1))) in
  b_lt (read_sin bdot M) (b_lit 1 1000000) = true -> b_lt (b_lit 0 1) (read_cos M) = false ->
  let r := g_R2rot A M in
  snd r = b_pi /\ w0 (fst r) = B (w0 (w0 M)) /\
  (b_lt (b_lit 1 1000000) (Babs (B (w0 (w0 M)))) = true \/
   w1 (fst r) = B (w1 (w1 M)) /\ (b_lt (b_lit 1 1000000) (Babs (B (w1 (w1 M)))) = true \/ w2 (fst r) = B (w2 (w2 M)))).
Proof. intros B. exact (R2rot_half A M). Qed.


Lemma sqrt_fin y : bfin (b_sqrt y) -> bfin y /\ 0 <= bval y.
Proof.
  destruct y as [sy|sy| |sy my ey By]; intros H.
  - split; [reflexivity | cbn; lra].
  - destruct sy; discriminate.
  - discriminate.
  - destruct sy.
    + exfalso. revert H. unfold bfin, b_sqrt. destruct (Bsqrt_correct 53 1024 prec64 emax64 mode_NE (B754_finite true my ey By)) as (_ & C2 & _). rewrite C2. discriminate.
    + split; [reflexivity|]. unfold bval, B2R, F2R. cbn. pose proof (bpow_gt_0 radix2 ey). pose proof (IZR_lt 0 (Z.pos my) eq_refl). nra.
Qed.
(** a small entry of the axis that the branch for half turns computes *)
Lemma half_entry (x sn : b64) tol : 99 / 100 <= bval sn <= 101 / 100 -> 0 < tol <= 9 / 10000000 -> bfin x -> -2 <= bval x <= 2 ->
  let B := b_sqrt (b_mul (b_div (b_lit 1 1) (b_lit 2 1)) (b_add x (b_lit 1 1))) in
  bfin (b_mul sn B) -> Rabs (bval (b_mul sn B)) < tol ->
  bval x <= -999 / 1000 /\ b_lt (b_lit 1 1000000) (Babs B) = false.
Proof.
  intros Hsn Htol Fx Bx B Fs Bs.
  pose proof uu_pos as U. pose proof uu_val' as UV. pose proof ee_le_uu as EU. assert (UB : uu <= 1 / 1000000000000000) by (rewrite UV; lra).
  assert (V1 : bval (b_lit 1 1) = 1) by (vm_compute; lra). assert (V2 : bval (b_lit 2 1) = 2) by (vm_compute; lra).
  destruct (mul_fin _ _ Fs) as [Fsn FB]. destruct (sqrt_fin _ FB) as [Fy Y0].
  set (hf := b_div (b_lit 1 1) (b_lit 2 1)) in *. assert (Vh : bval hf = 1 / 2) by (vm_compute; lra).
  set (z := b_add x (b_lit 1 1)) in *. destruct (mul_fin _ _ Fy) as [_ Fz].
  set (y := b_mul hf z) in *. destruct (sqrt_range0 y Fy Y0) as [_ VB]. fold B in VB.
  assert (EB := rnd_err (sqrt (bval y))). rewrite <- VB in EB.
  assert (Es := rnd_err (bval sn * bval B)). rewrite <- (mul_val _ _ Fs) in Es.
  assert (Ey := rnd_err (bval hf * bval z)). rewrite <- (mul_val _ _ Fy), Vh in Ey. fold y in Ey.
  assert (Ez := rnd_err (bval x + bval (b_lit 1 1))). rewrite <- (add_val _ _ Fz), V1 in Ez. fold z in Ez.
  pose proof (sqrt_pos (bval y)) as R0. set (r := sqrt (bval y)) in *. assert (RR : r * r = bval y) by (apply sqrt_sqrt; exact Y0).
  rewrite (Rabs_right r) in EB by lra. assert (EB1 : uu * r <= 1 / 1000000 * r) by (apply Rmult_le_compat_r; lra).
  apply Rabs_le_inv in EB. assert (B0 : - (2 * uu) <= bval B) by lra.
  assert (B1 : bval B <= 95 / 100000000).
  { destruct (Rle_lt_dec (bval B) 0) as [N|P]; [lra|].
    assert (P1 : 0 <= bval sn * bval B) by (apply Rmult_le_pos; lra). rewrite (Rabs_right (bval sn * bval B)) in Es by lra.
    apply Rabs_le_inv in Es. apply Rabs_def2 in Bs. assert (uu * (bval sn * bval B) <= 1 / 1000000 * (bval sn * bval B)) by (apply Rmult_le_compat_r; lra).
    assert (99 / 100 * bval B <= bval sn * bval B) by (apply Rmult_le_compat_r; lra). lra. }
  assert (R1 : r <= 96 / 100000000) by lra. assert (Y1 : bval y <= 1 / 1000000000) by nra.
  split.
  - assert (Z4 : -4 <= bval z <= 4).
    { assert (uu * Rabs (bval x + 1) <= uu * 3) by (apply Rmult_le_compat_l; [lra | apply Rabs_le; lra]). apply Rabs_le_inv in Ez. lra. }
    assert (uu * Rabs (1 / 2 * bval z) <= uu * 2) by (apply Rmult_le_compat_l; [lra | apply Rabs_le; lra]).
    assert (uu * Rabs (bval x + 1) <= uu * 3) by (apply Rmult_le_compat_l; [lra | apply Rabs_le; lra]).
    apply Rabs_le_inv in Ey. apply Rabs_le_inv in Ez. lra.
  - destruct (b_lt (b_lit 1 1000000) (Babs B)) eqn:E; [|reflexivity]. exfalso.
    assert (FA : bfin (Babs B)) by (unfold bfin; rewrite is_finite_Babs; exact FB).
    apply (b_lt_val (b_lit 1 1000000) (Babs B) eq_refl FA) in E. unfold bval at 2 in E. rewrite B2R_Babs in E. fold (bval B) in E.
    assert (VL : 99 / 100000000 <= bval (b_lit 1 1000000)) by (vm_compute; lra).
    assert (Rabs (bval B) <= 95 / 100000000) by (apply Rabs_le; lra). lra.
Qed.

(** C90 for the error matrix: the turn error is the sine of half the angle times the axis, except near half turns. *)
Lemma turn_read (M : m3 b64) k t e tol : unit3 k -> 0 <= t <= PI -> 0 <= e <= bpow radix2 (-29) -> stored_matrix e M (rot k t) ->
  bfin tol -> 0 < bval tol <= 1 / 2 -> g_below A tol (turn_vector M) = true ->
  small (Rmax (bval tol) (2 / 1000000) + 16 * e + bpow radix2 (-42)) (vscale (sin (t / 2)) k) \/
  (sin t < bpow radix2 (-19) /\ cos t < 0 /\ 9 / 10000000 < bval tol).
Proof.
  intros Uk Ht He HM Ft Htol HB.
  assert (HB' : (b_lt (Babs (w0 (turn_vector M))) tol && b_lt (Babs (w1 (turn_vector M))) tol && b_lt (Babs (w2 (turn_vector M))) tol)%bool = true) by exact HB. clear HB.
  apply andb_prop in HB'. destruct HB' as [HB B2]. apply andb_prop in HB. destruct HB as [B0 B1].
  apply (abs_lt _ _ Ft) in B0. apply (abs_lt _ _ Ft) in B1. apply (abs_lt _ _ Ft) in B2.
  assert (He' : 0 <= e <= bpow radix2 (-28)) by (split; [lra|]; eapply Rle_trans; [apply He|]; apply bpow_le; lia).
  destruct (entries_lt 1 k) as (K0 & K1 & K2). { rewrite (norm_unit k Uk). lra. }
  destruct (b_lt (read_sin bdot M) (b_lit 1 1000000)) eqn:LT.
  - assert (S : sin t < bpow radix2 (-19)).
    { apply Rnot_le_lt. intros C. rewrite (read_large bdot M k t e HD Uk Ht He' HM C) in LT. discriminate. }
    destruct (Rle_lt_dec 0 (cos t)) as [C|C].
    + left. pose proof (half_small t _ Ht C (Rlt_le _ _ S)) as HS. destruct (half_pos t Ht) as (P1 & _).
      assert (bpow radix2 (-19) = 1 / 524288) as E19 by (cbn; lra). rewrite E19 in HS. pose proof (Rmax_r (bval tol) (2 / 1000000)) as RM. pose proof (bpow_gt_0 radix2 (-42)) as P42.
      assert (G : forall x, Rabs x <= 1 -> Rabs (sin (t / 2) * x) < Rmax (bval tol) (2 / 1000000) + 16 * e + bpow radix2 (-42)).
      { intros x X. rewrite Rabs_mult, (Rabs_right (sin (t / 2))) by lra. assert (sin (t / 2) * Rabs x <= sin (t / 2) * 1) by (apply Rmult_le_compat_l; lra). lra. }
      unfold small, vscale. cbn [vx vy vz]. auto.
    + right. split; [exact S|]. split; [exact C|]. apply Rnot_le_lt. intros T9.
      destruct (read_cos_ok M k t e Uk He' HM) as [FC EC].
      assert (CT : cos t <= -9 / 10). { pose proof (sin2_cos2 t) as SC. unfold Rsqr in SC. pose proof (sin_ge_0 t ltac:(lra) ltac:(lra)). assert (bpow radix2 (-19) = 1 / 524288) as E19 by (cbn; lra). rewrite E19 in S. nra. }
      pose proof uu_val' as UV. assert (E28 : bpow radix2 (-28) = 1 / 268435456) by (cbn; lra). rewrite E28 in He'.
      assert (LC : b_lt (b_lit 0 1) (read_cos M) = false).
      { destruct (b_lt (b_lit 0 1) (read_cos M)) eqn:E; [|reflexivity]. exfalso. apply (b_lt_val (b_lit 0 1) _ eq_refl FC) in E.
        assert (V0 : bval (b_lit 0 1) = 0) by (vm_compute; lra). rewrite V0 in E. apply Rabs_le_inv in EC. rewrite UV in EC. lra. }
      destruct (read_half M LT LC) as (ETH & E0 & ALT). unfold turn_vector, v3map in B0, B1, B2. cbn [w0 w1 w2] in B0, B1, B2.
      set (sn := m_sin L (b_div b_pi (b_lit 2 1))) in *.
      assert (SUB : forall th k' k'' : b64, th = b_pi -> k' = k'' -> bfin (b_mul (m_sin L (b_div th (b_lit 2 1))) k') /\ Rabs (bval (b_mul (m_sin L (b_div th (b_lit 2 1))) k')) < bval tol ->
        bfin (b_mul sn k'') /\ Rabs (bval (b_mul sn k'')) < bval tol) by (intros th k' k'' -> ->; exact (fun H => H)).
      apply (SUB _ _ _ ETH E0) in B0.
      assert (Hsn : 99 / 100 <= bval sn <= 101 / 100).
      { assert (Fsn : bfin sn) by (destruct (mul_fin _ _ (proj1 B0)); assumption). destruct (proj1 HL _ Fsn) as [_ Esin]. fold sn in Esin.
        assert (Vh : bval (b_div b_pi (b_lit 2 1)) = 884279719003555 / 562949953421312) by (vm_compute; lra). rewrite Vh in Esin.
        pose proof (sin_lip (884279719003555 / 562949953421312) (PI / 2)) as SL. rewrite sin_PI2 in SL. pose proof pi_lo. pose proof pi_hi.
        assert (Rabs (884279719003555 / 562949953421312 - PI / 2) <= 1 / 1000) by (apply Rabs_le; lra).
        assert (bpow radix2 (-52) <= 1 / 1000) by (cbn; lra). apply Rabs_le_inv in Esin. apply Rabs_le_inv in SL. lra. }
      destruct HM as ((N00 & _ & _) & (_ & N11 & _) & (_ & _ & N22)).
      destruct (SO3_entries (rot k t) (rot_SO3 k t Uk)) as (R00 & _ & _ & _ & R11 & _ & _ & _ & R22).
      assert (BX : forall x v, near e x v -> Rabs v <= 1 -> bfin x /\ -2 <= bval x <= 2).
      { intros x v [F E] V. split; [exact F|]. apply Rabs_le_inv in E. apply Rabs_le_inv in V. lra. }
      destruct (BX _ _ N00 R00) as [F00 X00]. destruct (BX _ _ N11 R11) as [F11 X11]. destruct (BX _ _ N22 R22) as [F22 X22].
      destruct (half_entry _ sn (bval tol) Hsn (conj (proj1 Htol) T9) F00 X00 (proj1 B0) (proj2 B0)) as [V00 NB].
      destruct ALT as [ALT | [E1 ALT]]; [exact (eq_true_false_abs _ ALT NB)|]. apply (SUB _ _ _ ETH E1) in B1.
      destruct (half_entry _ sn (bval tol) Hsn (conj (proj1 Htol) T9) F11 X11 (proj1 B1) (proj2 B1)) as [V11 NB1].
      destruct ALT as [ALT | E2]; [exact (eq_true_false_abs _ ALT NB1)|]. apply (SUB _ _ _ ETH E2) in B2.
      destruct (half_entry _ sn (bval tol) Hsn (conj (proj1 Htol) T9) F22 X22 (proj1 B2) (proj2 B2)) as [V22 _].
      assert (TRC : m00 (rot k t) + m11 (rot k t) + m22 (rot k t) = 1 + 2 * cos t) by exact (rot_trace k t Uk).
      destruct N00 as [_ N00], N11 as [_ N11], N22 as [_ N22]. apply Rabs_le_inv in N00. apply Rabs_le_inv in N11. apply Rabs_le_inv in N22.
      pose proof (COS_bound t). lra.
  - assert (S : bpow radix2 (-20) <= sin t).
    { apply Rnot_lt_le. intros C. rewrite (read_small bdot M k t e HD Uk Ht He' HM (Rlt_le _ _ C)) in LT. discriminate. }
    destruct (R2rot_read L bdot M k t e HD HA Uk Ht S He' HM LT) as (FT & ET & F0 & F1 & F2 & EK).
    set (r := g_R2rot (b64_arith L bdot) M) in *. destruct (entries_lt _ _ EK) as (D0 & D1 & D2). unfold vsub in D0, D1, D2. cbn [vx vy vz] in D0, D1, D2.
    set (n := (6 * e + bpow radix2 (-45)) / sin t) in *.
    destruct (turn_entry _ _ (m_sin L (b_div (snd r) (b_lit 2 1))) _ _ t e n (bval tol) Ht S He Htol K0 FT ET D0 (Rle_refl _) eq_refl eq_refl (proj1 B0) (proj2 B0)) as [P0 Q0].
    destruct (turn_entry _ _ (m_sin L (b_div (snd r) (b_lit 2 1))) _ _ t e n (bval tol) Ht S He Htol K1 FT ET D1 (Rle_refl _) eq_refl eq_refl (proj1 B1) (proj2 B1)) as [P1 Q1].
    destruct (turn_entry _ _ (m_sin L (b_div (snd r) (b_lit 2 1))) _ _ t e n (bval tol) Ht S He Htol K2 FT ET D2 (Rle_refl _) eq_refl eq_refl (proj1 B2) (proj2 B2)) as [P2 Q2].
    destruct (Rle_lt_dec (-3 / 4) (cos t)) as [C|C].
    + left. specialize (P0 C). specialize (P1 C). specialize (P2 C). pose proof (Rmax_l (bval tol) (2 / 1000000)).
      unfold small, vscale. cbn [vx vy vz]. repeat split; lra.
    + exfalso. specialize (Q0 C). specialize (Q1 C). specialize (Q2 C). apply Rabs_le_inv in Q0. apply Rabs_le_inv in Q1. apply Rabs_le_inv in Q2.
      pose proof (unit_sq k Uk) as E. assert (forall x, -55 / 100 <= x <= 55 / 100 -> x * x <= 303 / 1000) as SQ by (intros x X; assert (0 <= (55 / 100 - x) * (55 / 100 + x)) by (apply Rmult_le_pos; lra); lra).
      pose proof (SQ (vx k) ltac:(lra)). pose proof (SQ (vy k) ltac:(lra)). pose proof (SQ (vz k) ltac:(lra)). lra.
Qed.
End Turn.
