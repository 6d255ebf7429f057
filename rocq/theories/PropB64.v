(** Properties C79-C83: what rounding to binary64 changes.  Each states a promise the exact
    computation keeps, shows that the floating-point computation breaks it for every order of
    evaluation of the dot products, and what remains true. *)
From Coq Require Import Reals ZArith List Bool Lra Lia.
From Flocq Require Import Core.Core IEEE754.BinarySingleNaN.
From Verif Require Import LinAlg RealAux Py FactsReal FactsLinAlg ModelRot SpecRot FactsRot PropRot ModelSub SpecSub FactsSub PropSub
  ModelRobot ModelFloat SpecRound FactsB64 FactsExact.
Import ListNotations.
Open Scope R_scope.

Definition b_vec (l : list Z) : list b64 := map b_ofZ l.
Ltac each_order := intros H; repeat (destruct H as [<- | H]; [vm_compute; reflexivity|]); destruct H.

(* ================= C79 ================= *)
(** subproblem1 accepts p and q that are turned into each other about k: not in binary64. *)
Theorem C79_refuted : exists p q k : list b64,
  (forall L dot, In dot b_dots -> g_subproblem1 (b64_arith L dot) p q k = Err AssertionError) /\
  match map bval p, map bval q, map bval k with
  | [p0; p1; p2], [q0; q1; q2], [k0; k1; k2] =>
      exists t, subproblem1 (V3 p0 p1 p2) (V3 q0 q1 q2) (V3 k0 k1 k2) = Ok t /\
        rotate (dir (V3 k0 k1 k2)) t (V3 p0 p1 p2) = V3 q0 q1 q2
  | _, _, _ => False
  end.
Proof.
  exists (b_vec [1;0;0]%Z), (b_vec [0;1;0]%Z), (b_vec [1;1;0]%Z). split; [intros L dot; each_order|].
  cbn [b_vec map]. replace (bval (b_ofZ 1)) with 1 by (vm_compute; lra). replace (bval (b_ofZ 0)) with 0 by (vm_compute; lra).
  set (k := V3 1 1 0). set (p := V3 1 0 0). set (q := V3 0 1 0).
  assert (K : k <> vzero) by (unfold k; intros E; injection E; lra).
  assert (N : norm k * norm k = 2) by (rewrite norm_sq; unfold k; vcalc; lra).
  assert (N0 : 0 < norm k) by (pose proof (norm_nonneg k); nra).
  assert (D : dir k = V3 (/ norm k) (/ norm k) 0) by (unfold dir, k at 2; vcalc; f_equal; ring).
  assert (I2 : / norm k * / norm k = 1 / 2) by (rewrite <- Rinv_mult, N; lra).
  assert (EQ : rotate (dir k) PI p = q).
  { rewrite D. unfold rotate, p, q. rewrite cos_PI, sin_PI. vcalc. f_equal; lra. }
  assert (OA : ~ on_axis (dir k) p).
  { rewrite D. unfold on_axis, p. vcalc. intros X. injection X. lra. }
  destruct (C28_subproblem1_solves k p PI K OA) as (t & E & _ & _ & H). rewrite EQ in E, H.
  exists t. split; [exact E|]. apply H.
  assert (norm (vsub p q) * norm (vsub p q) = 2) by (rewrite norm_sq; unfold p, q; vcalc; lra).
  pose proof (norm_nonneg (vsub p q)). unfold sqrt_eps. assert (1 <= norm (vsub p q)) by nra. lra.
Qed.

(** About a coordinate axis, and for entries of moderate size, the assertion never fails. *)
Definition b_axis (i : nat) : list b64 := match i with 0%nat => b_vec [1;0;0]%Z | 1%nat => b_vec [0;1;0]%Z | _ => b_vec [0;0;1]%Z end.
(** an entry other than the i-th is not tiny *)
Definition off_axis (i : nat) (v : list b64) : Prop :=
  exists j x, j <> i /\ nth_error v j = Some x /\ bpow radix2 (-400) <= Rabs (bval x).

Lemma proj_entries L dot p0 p1 p2 i : In dot b_dots -> (i < 3)%nat -> upto 400 p0 -> upto 400 p1 -> upto 400 p2 ->
  let A := b64_arith L dot in let p := [p0; p1; p2] in
  off_axis i p ->
  exists e0 e1 e2 : b64, let pp := l_sub A p (l_scale A (dot p (b_axis i)) (b_axis i)) in
    l_div A pp (l_norm A pp) = [e0; e1; e2] /\ upto 2 e0 /\ upto 2 e1 /\ upto 2 e2 /\ isv (nth i [e0; e1; e2] b_zero) 0.
Proof.
  intros HD Hi U0 U1 U2 A p (j & x & Hj & Ex & Bx).
  assert (I0 : isv (b_ofZ 0) 0) by (split; [reflexivity | vm_compute; lra]).
  assert (I1 : isv (b_ofZ 1) 1) by (split; [reflexivity | vm_compute; lra]).
  assert (S : forall y, upto 400 y -> isv y (bval y)) by (intros y [F _]; split; [exact F | reflexivity]).
  assert (Fi : forall y, upto 400 y -> bfin y) by (intros y [F _]; exact F).
  (* the projection drops the i-th entry *)
  assert (PP : exists a b c : b64, l_sub A p (l_scale A (dot p (b_axis i)) (b_axis i)) = [a; b; c] /\ upto 400 a /\ upto 400 b /\ upto 400 c /\
    isv (nth i [a; b; c] b_zero) 0 /\ exists y : b64, nth_error [a; b; c] j = Some y /\ bval y = bval x).
  { assert (Z : forall y, isv y 0 -> upto 400 y) by (intros y [F V]; split; [exact F|]; rewrite V, Rabs_R0; apply bpow_ge_0).
    assert (Q : forall y v, upto 400 y -> isv v (bval y) -> upto 400 v) by (intros y v [F B] [F' V]; split; [exact F'|]; rewrite V; exact B).
    unfold l_sub, zip, l_scale, p. destruct i as [|[|[|i]]]; [| | | lia]; cbn [b_axis b_vec map combine fst snd A nsub nmul b64_arith].
    - assert (D : isv (dot [p0; p1; p2] [b_ofZ 1; b_ofZ 0; b_ofZ 0]) (bval p0)) by (apply dot3_axis; auto 10).
      set (d := dot _ _) in *. pose proof (isv_fin _ _ D) as Fd.
      pose proof (isv_sub_same _ _ _ (S _ U0) (isv_mul1 _ _ _ D I1)) as R0.
      pose proof (isv_sub0 _ _ _ (S _ U1) (isv_mul0 _ _ Fd I0)) as R1. pose proof (isv_sub0 _ _ _ (S _ U2) (isv_mul0 _ _ Fd I0)) as R2.
      do 3 eexists. split; [reflexivity|]. split; [apply Z, R0|]. split; [apply (Q p1); [exact U1 | exact R1]|]. split; [apply (Q p2); [exact U2 | exact R2]|]. split; [exact R0|].
      destruct j as [|[|[|j]]]; [lia | | | destruct j; discriminate]; cbn in Ex; injection Ex as <-; eexists; (split; [reflexivity|]); apply R1 || apply R2.
    - assert (D : isv (dot [p0; p1; p2] [b_ofZ 0; b_ofZ 1; b_ofZ 0]) (bval p1)) by (apply dot3_axis; auto 10).
      set (d := dot _ _) in *. pose proof (isv_fin _ _ D) as Fd.
      pose proof (isv_sub_same _ _ _ (S _ U1) (isv_mul1 _ _ _ D I1)) as R1.
      pose proof (isv_sub0 _ _ _ (S _ U0) (isv_mul0 _ _ Fd I0)) as R0. pose proof (isv_sub0 _ _ _ (S _ U2) (isv_mul0 _ _ Fd I0)) as R2.
      do 3 eexists. split; [reflexivity|]. split; [apply (Q p0); [exact U0 | exact R0]|]. split; [apply Z, R1|]. split; [apply (Q p2); [exact U2 | exact R2]|]. split; [exact R1|].
      destruct j as [|[|[|j]]]; [| lia | | destruct j; discriminate]; cbn in Ex; injection Ex as <-; eexists; (split; [reflexivity|]); apply R0 || apply R2.
    - assert (D : isv (dot [p0; p1; p2] [b_ofZ 0; b_ofZ 0; b_ofZ 1]) (bval p2)) by (apply dot3_axis; auto 10).
      set (d := dot _ _) in *. pose proof (isv_fin _ _ D) as Fd.
      pose proof (isv_sub_same _ _ _ (S _ U2) (isv_mul1 _ _ _ D I1)) as R2.
      pose proof (isv_sub0 _ _ _ (S _ U0) (isv_mul0 _ _ Fd I0)) as R0. pose proof (isv_sub0 _ _ _ (S _ U1) (isv_mul0 _ _ Fd I0)) as R1.
      do 3 eexists. split; [reflexivity|]. split; [apply (Q p0); [exact U0 | exact R0]|]. split; [apply (Q p1); [exact U1 | exact R1]|]. split; [apply Z, R2|]. split; [exact R2|].
      destruct j as [|[|[|j]]]; [| | lia | destruct j; discriminate]; cbn in Ex; injection Ex as <-; eexists; (split; [reflexivity|]); apply R0 || apply R1. }
  destruct PP as (a & b & c & EP & Ua & Ub & Uc & Zi & y & Ey & Vy). rewrite EP. clear EP.
  (* its norm is of the right size *)
  pose proof (dot3_fin dot HD a b c a b c Ua Ub Uc Ua Ub Uc) as FD.
  destruct (dot_ok dot HD a b c a b c FD) as [_ ED]. set (d := dot [a; b; c] [a; b; c]) in *.
  set (sq := bval a * bval a + bval b * bval b + bval c * bval c) in *.
  rewrite (Rabs_right (bval a * bval a)), (Rabs_right (bval b * bval b)), (Rabs_right (bval c * bval c)) in ED by (apply Rle_ge, Rle_0_sqr). fold sq in ED.
  assert (SA : bval a * bval a <= sq /\ bval b * bval b <= sq /\ bval c * bval c <= sq)
    by (unfold sq; pose proof (Rle_0_sqr (bval a)); pose proof (Rle_0_sqr (bval b)); pose proof (Rle_0_sqr (bval c)); unfold Rsqr in *; lra).
  assert (SX : bpow radix2 (-800) <= sq).
  { assert (bpow radix2 (-800) <= bval x * bval x).
    { replace (-800)%Z with (-400 + -400)%Z by lia. rewrite bpow_plus, <- (Rabs_right (bval x * bval x)) by (apply Rle_ge, Rle_0_sqr).
      rewrite Rabs_mult. apply Rmult_le_compat; auto using bpow_ge_0. }
    rewrite <- Vy in H. destruct j as [|[|[|j]]]; cbn in Ey; [| | | destruct j; discriminate]; injection Ey as <-; lra. }
  pose proof uu_pos as P1. pose proof uu_small as P2. pose proof ee_pos as P3.
  assert (P4 : 10 * ee <= 1 / 100 * bpow radix2 (-800)).
  { unfold ee. replace (-1075)%Z with (-275 + -800)%Z by lia. rewrite bpow_plus. rewrite <- Rmult_assoc. apply Rmult_le_compat_r; [apply bpow_ge_0|].
    apply Rle_trans with (10 * bpow radix2 (-20)); [apply Rmult_le_compat_l; [lra | apply bpow_le; lia] | cbn; lra]. }
  pose proof (bpow_gt_0 radix2 (-800)) as P5.
  assert (DV : sq / 4 <= bval d /\ 0 < bval d).
  { assert (7 * uu * sq <= 7 * (1 / 1000000) * sq) by (apply Rmult_le_compat_r; lra).
    apply Rabs_le_inv in ED. split; lra. }
  destruct (sqrt_range d FD (proj2 DV)) as [FN VN]. set (n := b_sqrt d) in *.
  assert (NV : sqrt (bval d) / 2 <= bval n).
  { assert (S0 : bpow radix2 (-401) <= sqrt (bval d)).
    { rewrite <- (sqrt_square (bpow radix2 (-401))) by apply bpow_ge_0. apply sqrt_le_1_alt. rewrite <- bpow_plus.
      replace (-401 + -401)%Z with (-2 + -800)%Z by lia. rewrite bpow_plus. change (bpow radix2 (-2)) with (/ 4). lra. }
    pose proof (rnd_err (sqrt (bval d))) as R. rewrite <- VN in R. pose proof (sqrt_pos (bval d)) as SP. rewrite (Rabs_right (sqrt (bval d))) in R by lra.
    assert (EP : ee <= 1 / 100 * bpow radix2 (-401)).
    { unfold ee. replace (-1075)%Z with (-674 + -401)%Z by lia. rewrite bpow_plus. apply Rmult_le_compat_r; [apply bpow_ge_0|].
      apply Rle_trans with (bpow radix2 (-20)); [apply bpow_le; lia | cbn; lra]. }
    assert (uu * sqrt (bval d) <= 1 / 1000000 * sqrt (bval d)) by (apply Rmult_le_compat_r; lra).
    apply Rabs_le_inv in R. lra. }
  assert (N0 : 0 < bval n) by (pose proof (sqrt_lt_R0 _ (proj2 DV)); lra).
  assert (DIV : forall z, upto 400 z -> bval z * bval z <= sq -> upto 2 (b_div z n)).
  { intros z [Fz _] Hz.
    assert (B : Rabs (bval z / bval n) <= bpow radix2 2).
    { change (bpow radix2 2) with 4. unfold Rdiv. rewrite Rabs_mult, Rabs_inv, (Rabs_right (bval n)) by lra.
      apply Rmult_le_reg_r with (bval n); [exact N0|]. rewrite Rmult_assoc, Rinv_l, Rmult_1_r by lra.
      assert (Rabs (bval z) / 2 <= sqrt (bval d)).
      { rewrite <- (sqrt_square (Rabs (bval z) / 2)) by (pose proof (Rabs_pos (bval z)); lra). apply sqrt_le_1_alt.
        pose proof (Rsqr_abs (bval z)) as RA. unfold Rsqr in RA. lra. }
      lra. }
    destruct (div_range z n Fz) as [F V]; [lra | apply in_range; eapply Rle_trans; [exact B|]; apply bpow_le; lia|].
    split; [exact F|]. rewrite V. apply rnd_abs_le; [lia | exact B]. }
  exists (b_div a n), (b_div b n), (b_div c n). cbn zeta. split; [reflexivity|].
  split; [apply DIV; tauto|]. split; [apply DIV; tauto|]. split; [apply DIV; tauto|].
  destruct i as [|[|[|i]]]; [| | | lia]; cbn [nth] in *; apply isv_0div; try exact Zi; lra.
Qed.

Theorem C79_coordinate_axis : forall L dot i p0 p1 p2 q0 q1 q2, In dot b_dots -> (i < 3)%nat ->
  Forall (upto 400) [p0; p1; p2; q0; q1; q2] -> off_axis i [p0; p1; p2] -> off_axis i [q0; q1; q2] ->
  exists t, g_subproblem1 (b64_arith L dot) [p0; p1; p2] [q0; q1; q2] (b_axis i) = Ok t.
Proof.
  intros L dot i p0 p1 p2 q0 q1 q2 HD Hi HF Op Oq.
  inversion HF as [|? ? U0 HF1]; inversion HF1 as [|? ? U1 HF2]; inversion HF2 as [|? ? U2 HF3]; inversion HF3 as [|? ? V0 HF4];
    inversion HF4 as [|? ? V1 HF5]; inversion HF5 as [|? ? V2 _]; subst.
  destruct (proj_entries L dot p0 p1 p2 i HD Hi U0 U1 U2 Op) as (e0 & e1 & e2 & EP & E0 & E1 & E2 & Ei).
  destruct (proj_entries L dot q0 q1 q2 i HD Hi V0 V1 V2 Oq) as (f0 & f1 & f2 & EQ & F0 & F1 & F2 & Fi).
  unfold g_subproblem1. destruct (nlt _ _ _); [eexists; reflexivity|]. cbv zeta.
  assert (K : l_div (b64_arith L dot) (b_axis i) (l_norm (b64_arith L dot) (b_axis i)) = b_axis i).
  { assert (INJ : forall l l' : list b64, map B2SF l = map B2SF l' -> l = l').
    { induction l as [|x l IH]; intros [|y l']; cbn [map]; intros E; try discriminate; [reflexivity|].
      injection E as X1 X2. f_equal; [apply B2SF_inj; exact X1 | apply IH; exact X2]. }
    apply INJ. repeat (destruct HD as [<- | HD]; [destruct i as [|[|[|i]]]; [| | | lia]; vm_compute; reflexivity|]); destruct HD. }
  rewrite K. cbn [ndot b64_arith] in *. rewrite EP, EQ.
  assert (Z : forall a b c, upto 2 a -> upto 2 b -> upto 2 c -> isv (nth i [a; b; c] b_zero) 0 -> b_lt (dot (b_axis i) [a; b; c]) (b_lit 1 (2 ^ 52)) = true).
  { intros a b c Ua Ub Uc Zi.
    assert (W : forall z, upto 2 z -> upto 400 z) by (intros z; apply upto_weak; lia).
    assert (B0 : upto 400 (b_ofZ 0)) by (split; [reflexivity|]; replace (bval (b_ofZ 0)) with 0 by (vm_compute; lra); rewrite Rabs_R0; apply bpow_ge_0).
    assert (B1 : upto 400 (b_ofZ 1)) by (split; [reflexivity|]; replace (bval (b_ofZ 1)) with 1 by (vm_compute; lra); rewrite Rabs_R1; change 1 with (bpow radix2 0); apply bpow_le; lia).
    assert (G : bfin (dot (b_axis i) [a; b; c]) /\ Rabs (bval (dot (b_axis i) [a; b; c])) <= 10 * ee).
    { assert (X0 : bval (b_ofZ 0) = 0) by (vm_compute; lra). assert (X1 : bval (b_ofZ 1) = 1) by (vm_compute; lra).
      destruct i as [|[|[|i]]]; [| | | lia]; cbn [b_axis b_vec map nth] in *;
      match goal with |- bfin (dot [?x; ?y; ?z] _) /\ _ =>
        pose proof (dot3_fin dot HD x y z a b c ltac:(assumption) ltac:(assumption) ltac:(assumption) (W _ Ua) (W _ Ub) (W _ Uc)) as FD;
        destruct (dot_ok dot HD x y z a b c FD) as [_ ED] end;
      (split; [exact FD|]); rewrite X0, X1, (proj2 Zi), !Rmult_0_l, !Rmult_0_r, !Rabs_R0 in ED;
      match type of ED with Rabs (?u - _) <= _ => replace u with (u - (0 + 0 + 0)) by ring end; lra. }
    destruct G as [GF GV]. unfold b_lt. rewrite Bcompare_correct by (exact GF || reflexivity).
    rewrite Rcompare_Lt; [reflexivity|]. fold (bval (dot (b_axis i) [a; b; c])) (bval (b_lit 1 (2 ^ 52))).
    assert (E52 : bval (b_lit 1 (2 ^ 52)) = bpow radix2 (-52)) by (vm_compute; lra). rewrite E52.
    apply Rle_lt_trans with (10 * ee); [pose proof (Rle_abs (bval (dot (b_axis i) [a; b; c]))); lra|].
    apply Rle_lt_trans with (bpow radix2 4 * bpow radix2 (-1075)); [apply Rmult_le_compat_r; [apply bpow_ge_0 | cbn; lra]|].
    rewrite <- bpow_plus. apply bpow_lt. lia. }
  unfold g_subproblem0. cbn [nlt ndot b64_arith]. unfold neps. cbn [nlit b64_arith].
  rewrite (Z e0 e1 e2 E0 E1 E2 Ei), (Z f0 f1 f2 F0 F1 F2 Fi). cbn [andb assert_ bind].
  match goal with |- context [if ?x then _ else _] => destruct x end; eexists; reflexivity.
Qed.
Example C79_coordinate_axis_ex : Forall (upto 400) (b_vec [3;4;7;-4;3;-2]%Z) /\ off_axis 2 (b_vec [3;4;7]%Z) /\ off_axis 2 (b_vec [-4;3;-2]%Z) /\
  forall L dot, In dot b_dots -> b_lt (l_norm (b64_arith L dot) (l_sub (b64_arith L dot) (b_vec [3;4;7]%Z) (b_vec [-4;3;-2]%Z))) (nsqrt_eps (b64_arith L dot)) = false.
Proof.
  assert (I : forall z, (Z.abs z <= 1024)%Z -> bfin (b_ofZ z) -> bval (b_ofZ z) = IZR z -> upto 400 (b_ofZ z)).
  { intros z Hz F V. split; [exact F|]. rewrite V. apply Rle_trans with (bpow radix2 10); [|apply bpow_le; lia].
    change (bpow radix2 10) with (IZR 1024). rewrite <- abs_IZR. apply IZR_le. exact Hz. }
  split; [repeat apply Forall_cons; try apply Forall_nil; (apply I; [lia | reflexivity | vm_compute; lra])|].
  assert (O : forall x, bval x = 3 \/ bval x = -4 -> bpow radix2 (-400) <= Rabs (bval x)).
  { intros x H. apply Rle_trans with (bpow radix2 0); [apply bpow_le; lia|]. cbn. destruct H as [-> | ->]; unfold Rabs; destruct (Rcase_abs _); lra. }
  split; [exists 0%nat, (b_ofZ 3); split; [lia|]; split; [reflexivity|]; apply O; left; vm_compute; lra|].
  split; [exists 0%nat, (b_ofZ (-4)); split; [lia|]; split; [reflexivity|]; apply O; right; vm_compute; lra|].
  intros L dot. each_order.
Qed.
Print Assumptions C79_refuted.
Print Assumptions C79_coordinate_axis.

(* ================= C80 ================= *)
(** Interpolating between equal quaternions gives NaN whenever rounding makes the dot product of the normalised
    quaternion with itself exceed 1. *)
Theorem C80_nan : forall L dot (q : list b64) (t : b64),
  (forall x, b_lt (b_ofZ 1) x = true -> m_acos L x = B754_nan) -> m_sin L B754_nan = B754_nan ->
  let A := b64_arith L dot in
  let q1 : list b64 := l_div A q (l_norm A q) in
  b_lt (b_ofZ 1) (dot q1 q1) = true -> b_le b_zero t = true -> b_le t (b_ofZ 1) = true ->
  g_slerp A q q t = Ok (map (fun _ => B754_nan) q).
Proof.
  intros L dot q t HA HS A q1 H1 T0 T1. unfold g_slerp. fold A. unfold q1 in H1.
  cbn [nle nlt ndot nacos nsin nabs nsub nmul A b64_arith]. fold A. set (q' := l_div A q (l_norm A q)) in *.
  change (nzero A) with b_zero. change (none1 A) with (b_lit 1 1).
  assert (E1 : b_lit 1 1 = b_ofZ 1) by (apply B2SF_inj; vm_compute; reflexivity). rewrite E1, T0, T1. cbn [andb assert_ bind].
  assert (P : b_lt (dot q' q') b_zero = false).
  { set (x := dot q' q') in *. clearbody x. unfold b_lt in *. destruct (is_finite x) eqn:F.
    - rewrite Bcompare_correct in * by (assumption || reflexivity).
      assert (V : B2R (b_ofZ 1) = 1) by (vm_compute; lra). rewrite V in H1. cbn [b_zero B2R].
      destruct (Rcompare_spec 1 (B2R x)); try discriminate. rewrite Rcompare_Gt by lra. reflexivity.
    - destruct x as [|[|]| |]; try discriminate; reflexivity. }
  rewrite P, (HA _ H1). change (Babs B754_nan) with (@B754_nan 53 1024). change (b_lt B754_nan _) with false. cbv iota.
  assert (M : forall y, b_mul y B754_nan = B754_nan) by (intros [| | |]; reflexivity).
  rewrite !M, !HS. f_equal.
  assert (LA : l_add A (l_scale A B754_nan q') (l_scale A B754_nan q') = map (fun _ => B754_nan) q).
  { unfold l_add, zip, l_scale, q', l_div. cbn [nadd nmul A b64_arith]. clear. set (n := l_norm _ _). clearbody n.
    induction q as [|x q IH]; [reflexivity|]. cbn [map combine fst snd]. rewrite IH. f_equal. }
  rewrite LA. unfold l_div. cbn [ndiv A b64_arith]. rewrite !map_map. apply map_ext. intros x. reflexivity.
Qed.
Definition ex_q : list b64 := b_vec [1;0;1;1]%Z.
(** One such quaternion; the exact interpolation is the quaternion itself. *)
Theorem C80_refuted : exists q : list b64, length q = 4%nat /\
  (forall L dot t, In dot b_dots -> (forall x, b_lt (b_ofZ 1) x = true -> m_acos L x = B754_nan) -> m_sin L B754_nan = B754_nan ->
    b_le b_zero t = true -> b_le t (b_ofZ 1) = true -> g_slerp (b64_arith L dot) q q t = Ok (map (fun _ => B754_nan) q)) /\
  match map bval q with
  | [w; x; y; z] => forall t, 0 <= t <= 1 -> exists r, slerp (Q4 w x y z) (Q4 w x y z) t = Ok (Fin r) /\ unit4 r
  | _ => False
  end.
Proof.
  exists ex_q. split; [reflexivity|]. split.
  - intros L dot t HD HA HS T0 T1. apply C80_nan; auto. revert HD. clear. each_order.
  - cbn [ex_q b_vec map]. replace (bval (b_ofZ 1)) with 1 by (vm_compute; lra). replace (bval (b_ofZ 0)) with 0 by (vm_compute; lra).
    intros t Ht. apply C14_slerp_unit; [exact Ht | |]; unfold qnorm, qdot; cbn [LinAlg.q0 LinAlg.q1 q2 q3]; intros E; apply sqrt_eq_0 in E; lra.
Qed.

(* ================= C81 ================= *)
(** The alternatives of equivalent_configurations lie inside the limits: not in binary64. *)
Definition ex_upper : b64 := Bpred (b_add (b_ofZ (-4)) (b_mul (b_ofZ 2) b_pi)).
Theorem C81_refuted : exists lower upper theta x : b64, bval lower <= bval theta <= bval upper /\
  (forall L dot, g_equiv1 (b64_arith L dot) lower upper theta = [x]) /\ bval upper < bval x.
Proof.
  exists (b_ofZ (-10)), ex_upper, (b_ofZ (-4)), (b_add (b_ofZ (-4)) (b_mul (b_mul (b_lit 2 1) b_pi) (b_ofZ 1))).
  split; [vm_compute; lra|]. split; [|vm_compute; lra].
  intros L dot. unfold g_equiv1. cbn [b64_arith nfloor nlit npi nmul nadd nsub nofZ].
  assert (F1 : b_floor (b_sub ex_upper (b_ofZ (-4))) (b_mul (b_lit 2 1) b_pi) = Some 1%Z) by (vm_compute; reflexivity).
  assert (F2 : b_floor (b_sub (b_ofZ (-4)) (b_ofZ (-10))) (b_mul (b_lit 2 1) b_pi) = Some 0%Z) by (vm_compute; reflexivity).
  rewrite F1, F2. reflexivity.
Qed.

Lemma ofZ_val n : bfin (b_ofZ n) -> bval (b_ofZ n) = rnd (IZR n).
Proof.
  intros F. pose proof (binary_normalize_correct 53 1024 prec64 emax64 mode_NE n 0 false) as C. cbv zeta in C.
  replace (F2R _) with (IZR n) in C by (unfold F2R; cbn; ring). destruct (Rlt_bool _ _); [apply C|].
  destruct (overflow_not_finite _ _ C F).
Qed.
Lemma floor_le x y n : b_floor x y = Some n -> bfin x /\ bfin y /\ 0 < bval y /\ IZR n * bval y <= bval x.
Proof.
  intros H. destruct y as [sy|sy| |[|] m' e' By]; try (destruct x; discriminate).
  assert (PY : 0 < bval (B754_finite false m' e' By)) by (unfold bval, B2R, F2R; cbn; apply Rmult_lt_0_compat; [apply IZR_lt; reflexivity | apply bpow_gt_0]).
  destruct x as [sx|sx| |sx m e Bx]; try discriminate; unfold b_floor in H.
  - injection H as <-. split; [reflexivity|]. split; [reflexivity|]. split; [exact PY|]. rewrite Rmult_0_l. cbn. lra.
  - split; [reflexivity|]. split; [reflexivity|]. split; [exact PY|].
    set (a := cond_Zopp sx (Zpos m)) in *. injection H as H.
    set (k := Z.min e e'). assert (Ee : (e = k + Z.max 0 (e - e'))%Z) by lia. assert (Ee' : (e' = k + Z.max 0 (e' - e))%Z) by lia.
    set (p := Z.max 0 (e - e')) in *. set (p' := Z.max 0 (e' - e)) in *.
    assert (D : (n * (Zpos m' * 2 ^ p') <= a * 2 ^ p)%Z).
    { assert (HB : (0 < Zpos m' * 2 ^ p')%Z) by (apply Z.mul_pos_pos; [reflexivity | apply Z.pow_pos_nonneg; lia]).
      pose proof (Z.mul_div_le (a * 2 ^ p) _ HB) as Q. change (a * 2 ^ p / (Zpos m' * 2 ^ p') = n)%Z in H. rewrite H in Q. rewrite Z.mul_comm. exact Q. }
    apply IZR_le in D. rewrite !mult_IZR in D.
    change 2%Z with (radix_val radix2) in D. rewrite !(IZR_Zpower radix2) in D by lia.
    unfold bval, B2R, F2R. cbn [Fnum Fexp cond_Zopp]. fold a. rewrite Ee, Ee', !bpow_plus.
    pose proof (bpow_gt_0 radix2 k) as K. nra.
Qed.
Lemma two_pi_ge : 6 <= bval (b_mul (b_lit 2 1) b_pi). Proof. vm_compute. lra. Qed.

(** one step: theta plus m turns, where m turns fit into the rounded distance to the limit *)
Lemma turn_bound (th lim d tp f x : R) m :
  1 <= m -> 6 <= tp -> m * tp <= d -> Rabs (d - (lim - th)) <= uu * Rabs (lim - th) + ee ->
  Rabs (f - m) <= uu * m + ee -> forall P, Rabs (P - tp * f) <= uu * Rabs (tp * f) + ee -> Rabs (x - (th + P)) <= uu * Rabs (th + P) + ee ->
  x <= lim + 8 * uu * (Rabs th + Rabs lim).
Proof.
  intros Hm Ht Hd Ed Ef P EP Ex. pose proof uu_pos as U0. pose proof uu_small as U1. pose proof ee_pos as E0. pose proof ee_le_uu as E1.
  set (S := Rabs th + Rabs lim). set (g := lim - th) in *.
  assert (G : Rabs g <= S) by (unfold g, S; pose proof (Rabs_triang lim (- th)); rewrite Rabs_Ropp in H; unfold Rminus; lra).
  assert (EU : ee <= uu * (1 / 1000)).
  { unfold uu, ee. replace (-1075)%Z with (-53 + -1022)%Z by lia. rewrite bpow_plus. apply Rmult_le_compat_l; [apply bpow_ge_0|].
    apply Rle_trans with (bpow radix2 (-10)); [apply bpow_le; lia | cbn; lra]. }
  assert (MT : 6 <= m * tp) by nra.
  assert (S3 : 5 <= S).
  { apply Rabs_le_inv in Ed. assert (uu * Rabs g <= 1 / 1000000 * Rabs g) by (apply Rmult_le_compat_r; [apply Rabs_pos | lra]).
    pose proof (Rle_abs g). lra. }
  assert (D1 : d <= g + 1.01 * uu * S).
  { apply Rabs_le_inv in Ed. assert (uu * Rabs g <= uu * S) by (apply Rmult_le_compat_l; lra).
    assert (uu * 5 <= uu * S) by (apply Rmult_le_compat_l; lra). lra. }
  assert (D2 : d <= 1.01 * S) by (pose proof (Rle_abs g); assert (uu * S <= 1 / 1000000 * S) by (apply Rmult_le_compat_r; lra); lra).
  assert (F1 : f <= m + 1.01 * uu * m) by (apply Rabs_le_inv in Ef; assert (uu * 1 <= uu * m) by (apply Rmult_le_compat_l; lra); lra).
  assert (F0 : 0 <= f) by (apply Rabs_le_inv in Ef; nra).
  assert (Q0 : 0 <= tp * f) by (apply Rmult_le_pos; lra).
  assert (Q1 : tp * f <= m * tp + 1.01 * uu * (m * tp)).
  { pose proof (Rmult_le_compat_l tp _ _ ltac:(lra) F1). lra. }
  assert (Q2 : m * tp <= 1.01 * S) by lra.
  assert (Q3 : uu * (m * tp) <= uu * (1.01 * S)) by (apply Rmult_le_compat_l; lra).
  assert (US : 0 <= uu * S) by (apply Rmult_le_pos; lra).
  assert (Q4 : tp * f <= d + 1.03 * uu * S) by lra.
  assert (UT : uu * S <= 1 / 1000000 * S) by (apply Rmult_le_compat_r; lra).
  assert (Q5 : tp * f <= 1.02 * S) by lra.
  assert (P1 : P <= d + 2.1 * uu * S).
  { rewrite (Rabs_right (tp * f)) in EP by lra. apply Rabs_le_inv in EP. assert (uu * (tp * f) <= uu * (1.02 * S)) by (apply Rmult_le_compat_l; lra).
    assert (uu * 5 <= uu * S) by (apply Rmult_le_compat_l; lra). lra. }
  assert (P2 : Rabs P <= 1.1 * S).
  { rewrite (Rabs_right (tp * f)) in EP by lra. replace P with (P - tp * f + tp * f) by ring.
    pose proof (Rabs_triang (P - tp * f) (tp * f)) as T. rewrite (Rabs_right (tp * f)) in T by lra.
    assert (uu * (tp * f) <= 1 / 1000000 * (tp * f)) by (apply Rmult_le_compat_r; lra). lra. }
  assert (T1 : Rabs (th + P) <= 2.1 * S).
  { pose proof (Rabs_triang th P). assert (Rabs th <= S) by (unfold S; pose proof (Rabs_pos lim); lra). lra. }
  assert (X1 : uu * Rabs (th + P) <= uu * (2.1 * S)) by (apply Rmult_le_compat_l; lra).
  apply Rabs_le_inv in Ex. assert (uu * 5 <= uu * S) by (apply Rmult_le_compat_l; lra).
  replace lim with (th + g) by (unfold g; ring). lra.
Qed.

(** They exceed a limit by at most eight units in the last place. *)
Theorem C81_limits : forall L dot (lower upper theta x : b64), bval lower <= bval theta <= bval upper ->
  In x (g_equiv1 (b64_arith L dot) lower upper theta) -> bfin x ->
  bval lower - 8 * uu * (Rabs (bval theta) + Rabs (bval lower)) <= bval x <= bval upper + 8 * uu * (Rabs (bval theta) + Rabs (bval upper)).
Proof.
  intros L dot lower upper theta x HT HI Fx. unfold g_equiv1 in HI. cbn [b64_arith nfloor nlit npi nmul nadd nsub nofZ] in HI.
  set (tp := b_mul (b_lit 2 1) b_pi) in *. pose proof two_pi_ge as TP. fold tp in TP.
  pose proof uu_pos as U0.
  assert (W : forall y z, 0 <= 8 * uu * (Rabs y + Rabs z)) by (intros y z; pose proof (Rabs_pos y); pose proof (Rabs_pos z); apply Rmult_le_pos; lra).
  pose proof (W (bval theta) (bval lower)) as W1. pose proof (W (bval theta) (bval upper)) as W2.
  apply in_app_or in HI. destruct HI as [HI|HI]; apply in_map_iff in HI; destruct HI as (j & <- & Hj); apply in_seq in Hj.
  - destruct (b_floor (b_sub upper theta) tp) as [n|] eqn:EF; [|cbn in Hj; lia].
    destruct (floor_le _ _ _ EF) as (Fd & _ & _ & Hn). set (m := (Z.of_nat j + 1)%Z) in *.
    assert (Hm : (1 <= m <= n)%Z) by lia.
    destruct (add_fin _ _ Fx) as [Fth FP]. destruct (mul_fin _ _ FP) as [_ Ff].
    pose proof (rnd_err (bval upper - bval theta)) as E1. rewrite <- (sub_val _ _ Fd) in E1.
    pose proof (rnd_err (IZR m)) as E2. rewrite <- (ofZ_val _ Ff) in E2.
    assert (M1 : 1 <= IZR m) by (apply IZR_le; lia). rewrite (Rabs_right (IZR m)) in E2 by lra.
    pose proof (rnd_err (bval tp * bval (b_ofZ m))) as E3. rewrite <- (mul_val _ _ FP) in E3.
    pose proof (rnd_err (bval theta + bval (b_mul tp (b_ofZ m)))) as E4. rewrite <- (add_val _ _ Fx) in E4.
    assert (MT : IZR m * bval tp <= bval (b_sub upper theta)).
    { eapply Rle_trans; [|exact Hn]. apply Rmult_le_compat_r; [lra | apply IZR_le; lia]. }
    pose proof (turn_bound _ _ _ _ _ _ _ M1 TP MT E1 E2 _ E3 E4) as B. split; [|exact B].
    (* adding a positive number does not decrease *)
    assert (PP : 0 <= bval (b_mul tp (b_ofZ m))).
    { rewrite (mul_val _ _ FP). rewrite <- (rnd_exact 0) by apply generic_format_0. apply rnd_le. apply Rmult_le_pos; [lra|].
      rewrite (ofZ_val _ Ff). rewrite <- (rnd_exact 0) by apply generic_format_0. apply rnd_le. lra. }
    assert (bval theta <= bval (b_add theta (b_mul tp (b_ofZ m)))).
    { rewrite (add_val _ _ Fx). rewrite <- (rnd_exact (bval theta)) at 1 by apply fmt_bval. apply rnd_le. lra. }
    lra.
  - destruct (b_floor (b_sub theta lower) tp) as [n|] eqn:EF; [|cbn in Hj; lia].
    destruct (floor_le _ _ _ EF) as (Fd & _ & _ & Hn). set (m := (Z.of_nat j + 1)%Z) in *.
    assert (Hm : (1 <= m <= n)%Z) by lia.
    destruct (sub_fin _ _ Fx) as [Fth FP]. destruct (mul_fin _ _ FP) as [_ Ff].
    pose proof (rnd_err (bval theta - bval lower)) as E1. rewrite <- (sub_val _ _ Fd) in E1.
    pose proof (rnd_err (IZR m)) as E2. rewrite <- (ofZ_val _ Ff) in E2.
    assert (M1 : 1 <= IZR m) by (apply IZR_le; lia). rewrite (Rabs_right (IZR m)) in E2 by lra.
    pose proof (rnd_err (bval tp * bval (b_ofZ m))) as E3. rewrite <- (mul_val _ _ FP) in E3.
    pose proof (rnd_err (bval theta - bval (b_mul tp (b_ofZ m)))) as E4. rewrite <- (sub_val _ _ Fx) in E4.
    assert (MT : IZR m * bval tp <= bval (b_sub theta lower)).
    { eapply Rle_trans; [|exact Hn]. apply Rmult_le_compat_r; [lra | apply IZR_le; lia]. }
    set (x := bval (b_sub theta (b_mul tp (b_ofZ m)))) in *. set (P := bval (b_mul tp (b_ofZ m))) in *.
    assert (E1' : Rabs (bval (b_sub theta lower) - (- bval lower - - bval theta)) <= uu * Rabs (- bval lower - - bval theta) + ee)
      by (replace (- bval lower - - bval theta) with (bval theta - bval lower) by ring; exact E1).
    assert (E4' : Rabs (- x - (- bval theta + P)) <= uu * Rabs (- bval theta + P) + ee).
    { replace (- x - (- bval theta + P)) with (- (x - (bval theta - P))) by ring. replace (- bval theta + P) with (- (bval theta - P)) by ring.
      rewrite !Rabs_Ropp. exact E4. }
    pose proof (turn_bound _ _ _ _ _ _ _ M1 TP MT E1' E2 _ E3 E4') as B. rewrite !Rabs_Ropp in B. split; [lra|].
    assert (PP : 0 <= P).
    { unfold P. rewrite (mul_val _ _ FP). rewrite <- (rnd_exact 0) by apply generic_format_0. apply rnd_le. apply Rmult_le_pos; [lra|].
      rewrite (ofZ_val _ Ff). rewrite <- (rnd_exact 0) by apply generic_format_0. apply rnd_le. lra. }
    assert (x <= bval theta).
    { unfold x. rewrite (sub_val _ _ Fx). rewrite <- (rnd_exact (bval theta)) at 2 by apply fmt_bval. apply rnd_le. fold P. lra. }
    lra.
Qed.
Example C81_limits_ex : exists x, bval (b_ofZ (-20)) <= bval (b_ofZ 1) <= bval (b_ofZ 20) /\
  (forall L dot, In x (g_equiv1 (b64_arith L dot) (b_ofZ (-20)) (b_ofZ 20) (b_ofZ 1)) /\
                 length (g_equiv1 (b64_arith L dot) (b_ofZ (-20)) (b_ofZ 20) (b_ofZ 1)) = 6%nat) /\ bfin x.
Proof.
  exists (b_add (b_ofZ 1) (b_mul (b_mul (b_lit 2 1) b_pi) (b_ofZ 3))). split; [vm_compute; lra|]. split; [|reflexivity].
  intros L dot. unfold g_equiv1. cbn [b64_arith nfloor nlit npi nmul nadd nsub nofZ].
  assert (F1 : b_floor (b_sub (b_ofZ 20) (b_ofZ 1)) (b_mul (b_lit 2 1) b_pi) = Some 3%Z) by (vm_compute; reflexivity).
  assert (F2 : b_floor (b_sub (b_ofZ 1) (b_ofZ (-20))) (b_mul (b_lit 2 1) b_pi) = Some 3%Z) by (vm_compute; reflexivity).
  rewrite F1, F2. split.
  - apply in_or_app. left. apply in_map_iff. exists 2%nat. split; [reflexivity | apply in_seq; cbn; lia].
  - rewrite app_length, !map_length, !seq_length. reflexivity.
Qed.
Print Assumptions C80_nan.
Print Assumptions C80_refuted.
Print Assumptions C81_refuted.
Print Assumptions C81_limits.

(* ================= C82 ================= *)
(** subproblem3 finds the solution of an exactly stretched arm (0.5 + 1.1 = 1.6, also for the stored numbers): not in
    binary64. *)
Theorem C82_refuted : exists (p q k : list b64) (d : b64),
  (forall L dot, In dot b_dots -> g_subproblem3 (b64_arith L dot) p q k d = Ok []) /\
  match map bval p, map bval q, map bval k with
  | [p0; p1; p2], [q0; q1; q2], [k0; k1; k2] =>
      let p' := V3 p0 p1 p2 in let q' := V3 q0 q1 q2 in let k' := V3 k0 k1 k2 in
      unit3 k' /\ norm (vadd q' (rotate k' 0 p')) = bval d /\ exists l s, subproblem3 p' q' k' (bval d) = Ok l /\ In s l
  | _, _, _ => False
  end.
Proof.
  exists [b_lit 5 10; b_zero; b_zero], [b_lit 11 10; b_zero; b_zero], (b_vec [0;0;1]%Z), (b_lit 16 10).
  split; [intros L dot; each_order|]. cbn [b_vec map].
  replace (bval (b_ofZ 1)) with 1 by (vm_compute; lra). replace (bval (b_ofZ 0)) with 0 by (vm_compute; lra).
  change (bval b_zero) with 0.
  assert (E16 : bval (b_lit 16 10) = bval (b_lit 5 10) + bval (b_lit 11 10)) by (vm_compute; lra).
  assert (E5 : 0 < bval (b_lit 5 10)) by (vm_compute; lra). assert (E11 : 0 < bval (b_lit 11 10)) by (vm_compute; lra).
  set (x := bval (b_lit 5 10)) in *. set (y := bval (b_lit 11 10)) in *. cbv zeta. rewrite E16.
  assert (U : unit3 (V3 0 0 1)) by (unfold unit3; vcalc; lra).
  assert (N : norm (vadd (V3 y 0 0) (rotate (V3 0 0 1) 0 (V3 x 0 0))) = x + y).
  { unfold rotate. rewrite cos_0, sin_0. unfold norm, norm2. vcalc. match goal with |- sqrt ?a = _ => replace a with ((x + y) * (x + y)) by ring end.
    apply sqrt_square. lra. }
  split; [exact U|]. split; [exact N|].
  assert (OA : forall z, 0 < z -> ~ on_axis (V3 0 0 1) (V3 z 0 0)) by (intros z Z; unfold on_axis; vcalc; intros X; injection X; lra).
  destruct (C32_subproblem3_complete (V3 x 0 0) (V3 y 0 0) (V3 0 0 1) 0 U (OA x E5) (OA y E11)) as (l & s & E & I & _).
  rewrite N in E. exists l, s. split; assumption.
Qed.

(* ================= C83 ================= *)
(** R2rot gives the axis of every rotation by pi: not in binary64.  The axis is (0, 1, 5) normalised, sin and cos of
    np.pi are the correctly rounded values. *)
Definition b_sin_pi : b64 := binary_normalize 53 1024 prec64 emax64 mode_NE 4967757600021511 (-105) false.
Definition half_turn_axis (A : arith) (z y : num A) : v3 (num A) :=
  let n := nsqrt A (ndot A [nzero A; z; y] [nzero A; z; y]) in W3 (ndiv A (nzero A) n) (ndiv A z n) (ndiv A y n).
Theorem C83_refuted : exists y z : b64, forall L dot, In dot b_dots -> m_sin L b_pi = b_sin_pi -> m_cos L b_pi = b_ofZ (-1) ->
  let A := b64_arith L dot in
  let k : v3 (num A) := half_turn_axis A y z in
  Rabs (bval (w0 k) * bval (w0 k) + bval (w1 k) * bval (w1 k) + bval (w2 k) * bval (w2 k) - 1) <= bpow radix2 (-51) /\
  w0 (fst (g_R2rot A (g_rot A k b_pi))) = B754_nan.
Proof.
  exists (b_ofZ 1), (b_ofZ 5). intros L dot HD HS HC A k.
  set (L0 := Libm (fun _ => b_sin_pi) (fun _ => b_ofZ (-1)) (fun x => x) (fun x _ => x)).
  assert (E : g_rot A k b_pi = g_rot (b64_arith L0 dot) k b_pi).
  { unfold g_rot. cbn [A nsin ncos b64_arith L0 m_sin m_cos]. rewrite HS, HC. reflexivity. }
  rewrite E. unfold k, A. clear E k A HS HC.
  repeat (destruct HD as [<- | HD]; [split; [apply Rabs_le; vm_compute; lra | vm_compute; reflexivity]|]). destruct HD.
Qed.
Print Assumptions C82_refuted.
Print Assumptions C83_refuted.
