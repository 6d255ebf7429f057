(** Property C89: the angles that subproblem1 returns in binary64. *)
From Coq Require Import Reals ZArith List Bool Lra Lia Psatz.
From Flocq Require Import Core.Core IEEE754.BinarySingleNaN.
From Verif Require Import LinAlg RealAux Py FactsReal FactsLinAlg ModelRot SpecRot FactsRot FactsRot2 FactsNorm SpecSub FactsSub ModelRobot ModelFloat SpecRound FactsB64 FactsExact PropB64 PropNorm FactsTrack SpecArc FactsAngle PropElbow PropSlerp PropPi.
Import ListNotations.
Open Scope R_scope.

Lemma eight : bpow radix2 (-50) = 8 * uu. Proof. rewrite uu_val'. cbn. lra. Qed.
Lemma mod380 M : moderate M -> rg 380 M. Proof. intros H. exact H. Qed.

(** The rotation about k by the returned angle takes the direction of p, seen along the axis, to the
    direction of q, up to 2^-31 times the ratio of the size of the inputs to their distance from the axis. *)
Theorem C89_direction : forall L bdot p q k p0 q0 k0 M r t, In bdot b_dots -> libm_arc_ok L (bpow radix2 (-50)) ->
  moderate M -> stored M p p0 -> stored M q q0 -> moderate (norm k0) -> stored (norm k0) k k0 ->
  1 <= r <= bpow radix2 20 -> M <= r * norm (perp (dir k0) p0) -> M <= r * norm (perp (dir k0) q0) ->
  g_subproblem1 (b64_arith L bdot) p q k = Ok t ->
  bfin t /\ Rabs (bval t) <= 16 / 5 /\
  ((bval t = 0 /\ norm (vsub p0 q0) <= sqrt_eps + bpow radix2 (-47) * M) \/
   norm (vsub (rotate (dir k0) (bval t) (dir (perp (dir k0) p0))) (dir (perp (dir k0) q0))) <= bpow radix2 (-31) * r).
Proof.
  intros L bdot p q k p0 q0 k0 M r t HD HL HM Hp Hq HK Hk [R1 R2] Bp Bq E. rewrite eight in HL.
  assert (NK : 0 < norm k0) by (apply (rg_pos 380); exact HK). assert (KZ : k0 <> vzero) by (intros ->; rewrite norm_vzero in NK; lra).
  pose proof (rg_pos 380 M HM) as MP. pose proof uu_pos as U. change (bpow radix2 20) with 1048576 in R2.
  destruct (sub1_acc L bdot HD HL 0 r M (norm k0) p q k p0 q0 k0 t ltac:(lra) R1 ltac:(lra) HM HK (stored_vtr _ _ _ Hp) (stored_vtr _ _ _ Hq) (stored_vtr _ _ _ Hk) KZ ltac:(lra) Bp Bq E) as (F & B & H).
  split; [exact F|]. split; [exact B|]. destruct H as [[Z N] | N]; [left | right].
  - split; [exact Z|]. assert (bpow radix2 (-47) = 64 * uu) as -> by (rewrite uu_val'; cbn; lra).
    assert (0 < uu * M) by (apply Rmult_lt_0_compat; lra). lra.
  - assert (bpow radix2 (-31) = 4194304 * uu) as -> by (rewrite uu_val'; cbn; lra).
    assert (0 < uu * r) by (apply Rmult_lt_0_compat; lra). lra.
Qed.

(** If some rotation about k takes p to q, the returned angle does so up to 2^-26 (the threshold of
    subproblem1) plus 2^-31 of the size of the inputs. *)
Theorem C89_solves : forall L bdot p q k p0 q0 k0 M a t, In bdot b_dots -> libm_arc_ok L (bpow radix2 (-50)) ->
  moderate M -> stored M p p0 -> stored M q q0 -> moderate (norm k0) -> stored (norm k0) k k0 ->
  M <= bpow radix2 20 * norm (perp (dir k0) p0) -> q0 = rotate (dir k0) a p0 ->
  g_subproblem1 (b64_arith L bdot) p q k = Ok t ->
  bfin t /\ norm (vsub (rotate (dir k0) (bval t) p0) q0) <= sqrt_eps + bpow radix2 (-31) * M.
Proof.
  intros L bdot p q k p0 q0 k0 M a t HD HL HM Hp Hq HK Hk B Q E.
  assert (NK : 0 < norm k0) by (apply (rg_pos 380); exact HK). assert (KZ : k0 <> vzero) by (intros ->; rewrite norm_vzero in NK; lra).
  pose proof (dir_unit k0 KZ) as U. set (h := dir k0) in *. pose proof (rg_pos 380 M HM) as MP.
  set (n := norm (perp h p0)) in *. assert (N0 : 0 < n). { pose proof (norm_nonneg (perp h p0)) as N. fold n in N. destruct N as [N | N]; [exact N|]. rewrite <- N in B. lra. }
  assert (NM : n <= M). { destruct (stored_vtr _ _ _ Hp) as (_ & _ & _ & _ & _ & _ & _ & W). pose proof (perp_le h p0 U) as W2. fold n in W2. lra. }
  assert (QP : perp h q0 = mvec (rot h a) (perp h p0)) by (rewrite Q, <- (rot_rotate h a p0 U); apply perp_rot_perp; exact U).
  assert (NQ : norm (perp h q0) = n) by (rewrite QP; unfold n; apply norm_SO3, rot_SO3, U).
  assert (RN : M / n * n = M) by (field; lra).
  assert (R1 : 1 <= M / n) by (apply Rmult_le_reg_r with n; [exact N0 | lra]).
  assert (R2 : M / n <= bpow radix2 20) by (apply Rmult_le_reg_r with n; [exact N0 | lra]).
  destruct (C89_direction L bdot p q k p0 q0 k0 M (M / n) t HD HL HM Hp Hq HK Hk (conj R1 R2) ltac:(fold h n; lra) ltac:(fold h; rewrite NQ; lra) E) as (F & _ & H).
  fold h in H. split; [exact F|].
  assert (P31 : bpow radix2 (-47) * M <= bpow radix2 (-31) * M) by (apply Rmult_le_compat_r; [lra | apply bpow_le; lia]).
  destruct H as [[Z N] | N].
  - rewrite Z. replace (rotate h 0 p0) with p0; [lra|]. unfold rotate. rewrite cos_0, sin_0. la_ring.
  - assert (D : vsub (rotate h (bval t) p0) q0 = vscale n (vsub (rotate h (bval t) (dir (perp h p0))) (dir (perp h q0)))).
    { rewrite Q at 1. unfold dir at 2. rewrite NQ, QP. unfold dir. fold n. rewrite <- !rot_rotate by exact U. rewrite (perp_rot h (bval t) p0 U), (perp_rot h a p0 U).
      set (x := mvec (rot h a) (perp h p0)). rewrite mvec_vscale. set (y := mvec (rot h (bval t)) (perp h p0)).
      assert (I : n * / n = 1) by (apply Rinv_r; lra). clearbody x y. destruct x as [x1 x2 x3], y as [y1 y2 y3]. unfold vsub, vadd, vscale; cbn [vx vy vz].
      f_equal; match goal with |- _ + ?u - (_ + ?w) = _ => transitivity (n * / n * (u - w)); [rewrite I; ring | ring] end. }
    rewrite D, norm_vscale, (Rabs_right n) by lra.
    apply Rle_trans with (n * (bpow radix2 (-31) * (M / n))); [apply Rmult_le_compat_l; [lra | exact N]|].
    replace (n * (bpow radix2 (-31) * (M / n))) with (bpow radix2 (-31) * (M / n * n)) by ring. rewrite RN.
    unfold sqrt_eps. assert (0 < / 2 ^ 26) by (apply Rinv_0_lt_compat, pow_lt; lra). lra.
Qed.

(** The only error is the failed assertion of subproblem0. *)
Theorem C89_error : forall L bdot p q k e, g_subproblem1 (b64_arith L bdot) p q k = Err e -> e = AssertionError.
Proof.
  intros L bdot p q k e. unfold g_subproblem1. destruct (nlt _ _ _); [discriminate|]. cbv zeta. unfold g_subproblem0.
  unfold assert_. destruct (_ && _)%bool; cbn [bind]; [destruct (nlt _ _ _); discriminate|]. intros [= <-]. reflexivity.
Qed.

(* ---- a math library that meets the contract, and a quarter turn ---- *)
Definition arc_libm : libm :=
  Libm (m_sin near_libm) (m_cos near_libm) (m_acos near_libm)
       (fun y x => if (is_finite y && is_finite x)%bool then b_near (atan2 (bval y) (bval x)) else B754_nan).
Lemma near_err x : Rabs x <= 3.2 -> bfin (b_near x) /\ Rabs (bval (b_near x) - x) <= 8 * uu.
Proof.
  intros B. destruct (b_near_ok4 x) as [F V]; [lra|]. split; [exact F|]. rewrite V. pose proof (rnd_err x) as R. pose proof ee_le_uu. pose proof uu_pos.
  assert (uu * Rabs x <= uu * 3.2) by (apply Rmult_le_compat_l; lra). lra.
Qed.
Lemma arc_libm_ok : libm_arc_ok arc_libm (bpow radix2 (-50)).
Proof.
  rewrite eight. pose proof pi_hi as PH. split.
  - intros y x Fy Fx _ _ _. cbn [m_atan2 arc_libm]. unfold bfin in *. rewrite Fy, Fx. cbn [andb]. apply near_err.
    pose proof (atan2_range (bval y) (bval x)). apply Rabs_le. lra.
  - intros x F B. cbn [m_acos arc_libm near_libm]. unfold bfin in F. rewrite F.
    assert (E : Rleb (Rabs (bval x)) 1 = true) by (unfold Rleb; destruct (Rle_dec _ _); [reflexivity | contradiction]). rewrite E. cbn [andb].
    apply near_err. pose proof (acos_bound (bval x)). apply Rabs_le. lra.
Qed.
Lemma vec_val l (v : vec3) M : match l with [a; b; c] => bfin (b_ofZ a) /\ bfin (b_ofZ b) /\ bfin (b_ofZ c) /\ v = V3 (bval (b_ofZ a)) (bval (b_ofZ b)) (bval (b_ofZ c)) | _ => False end ->
  0 <= M -> dot v v <= M * M -> stored M (b_vec l) v.
Proof.
  destruct l as [|a [|b [|c [|]]]]; try contradiction. intros (Fa & Fb & Fc & E) M0 B. exists (b_ofZ a), (b_ofZ b), (b_ofZ c). cbn [b_vec map].
  repeat (split; [assumption || reflexivity|]). unfold norm, norm2. apply Rsqr_incr_0_var; [|exact M0]. rewrite Rsqr_sqrt; [exact B|]. clear. unfold LinAlg.dot. destruct v as [x y z]; cbn [vx vy vz]. nra.
Qed.
Ltac ofz := repeat split; try reflexivity; f_equal; vm_compute; lra.
Lemma int_moderate x : 1 <= x <= 1024 -> moderate x.
Proof. intros [H1 H2]. split; [apply Rle_trans with (bpow radix2 0); [apply bpow_le; lia | exact H1] | apply Rle_trans with (bpow radix2 10); [exact H2 | apply bpow_le; lia]]. Qed.

(** (3, 4, 7) to (-4, 3, 7) about the last axis *)
Example C89_ex :
  let p := b_vec [3;4;7]%Z in let q := b_vec [-4;3;7]%Z in let k := b_vec [0;0;1]%Z in
  let p0 := V3 3 4 7 in let q0 := V3 (-4) 3 7 in let k0 := V3 0 0 1 in
  libm_arc_ok arc_libm (bpow radix2 (-50)) /\ moderate 16 /\ stored 16 p p0 /\ stored 16 q q0 /\ moderate (norm k0) /\ stored (norm k0) k k0 /\
  16 <= 4 * norm (perp (dir k0) p0) /\ 16 <= 4 * norm (perp (dir k0) q0) /\ q0 = rotate (dir k0) (PI / 2) p0 /\
  forall bdot, In bdot b_dots -> exists t, g_subproblem1 (b64_arith arc_libm bdot) p q k = Ok t.
Proof.
  cbv zeta. assert (U : unit3 (V3 0 0 1)) by (unfold unit3, dot; cbn; ring). pose proof (norm_unit _ U) as NU.
  assert (D : dir (V3 0 0 1) = V3 0 0 1) by (unfold dir; rewrite NU; unfold vscale; cbn [vx vy vz]; f_equal; field). rewrite D, NU.
  assert (N5 : forall v, dot v v = 25 -> norm v = 5). { intros v E. unfold norm, norm2. rewrite E. replace 25 with (5 * 5) by ring. apply sqrt_square. lra. }
  split; [apply arc_libm_ok|]. split; [apply int_moderate; lra|].
  split; [apply vec_val; [ofz | lra | unfold dot; cbn; lra]|]. split; [apply vec_val; [ofz | lra | unfold dot; cbn; lra]|].
  split; [apply int_moderate; lra|]. split; [apply vec_val; [ofz | lra | unfold dot; cbn; lra]|].
  split; [rewrite N5; [lra|]; unfold perp, dot, vsub, vscale; cbn; lra|]. split; [rewrite N5; [lra|]; unfold perp, dot, vsub, vscale; cbn; lra|].
  split. { unfold rotate. rewrite cos_PI2, sin_PI2. unfold vadd, vscale, cross, dot; cbn [vx vy vz]. f_equal; ring. }
  intros bdot HD. change (b_vec [0;0;1]%Z) with (b_axis 2). cbn [b_vec map]. 
  assert (I : forall z, (Z.abs z <= 1024)%Z -> bfin (b_ofZ z) -> bval (b_ofZ z) = IZR z -> upto 400 (b_ofZ z)).
  { intros z Hz F V. split; [exact F|]. rewrite V. apply Rle_trans with (bpow radix2 10); [|apply bpow_le; lia].
    change (bpow radix2 10) with (IZR 1024). rewrite <- abs_IZR. apply IZR_le. exact Hz. }
  assert (O : forall x, bval x = 3 -> bpow radix2 (-400) <= Rabs (bval x)).
  { intros x ->. apply Rle_trans with (bpow radix2 0); [apply bpow_le; lia|]. cbn. rewrite Rabs_right; lra. }
  apply C79_coordinate_axis; [exact HD | lia | | |].
  - repeat apply Forall_cons; try apply Forall_nil; (apply I; [lia | reflexivity | vm_compute; lra]).
  - exists 0%nat, (b_ofZ 3). split; [lia|]. split; [reflexivity|]. apply O. vm_compute; lra.
  - exists 1%nat, (b_ofZ 3). split; [lia|]. split; [reflexivity|]. apply O. vm_compute; lra.
Qed.
Print Assumptions C89_direction.
Print Assumptions C89_solves.
