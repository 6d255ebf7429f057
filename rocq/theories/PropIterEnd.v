(** Property C103: the pose of the returned joints, and runs of the program. *)
From Coq Require Import Reals ZArith List Bool Lra Lia Psatz.
From Flocq Require Import Core.Core IEEE754.BinarySingleNaN.
From Verif Require Import LinAlg RealAux Py FactsReal FactsLinAlg ModelRot ModelInvkin PropReal PropJac FactsFloat FactsIter PropAngle SpecRot FactsRot FactsNorm SpecSub FactsSub ModelTransform ModelRobot ModelKin SpecKin FactsKin PropKin
  ModelFloat ModelFloat2 ModelFloat3 ModelFloat7 SpecRound FactsRound FactsB64 FactsExact PropPi PropNorm PropFloat FactsTrack FactsNear SpecArc SpecArc2 PropR2rot FactsRpy SpecEquiv PropIter FactsIter64 SpecMove PropMove PropIter64.
Import ListNotations.
Open Scope R_scope.
Local Notation near := SpecArc2.near.
Local Notation small := SpecEquiv.small.

(* ---- the pose as a map of points ---- *)
Lemma half_moves k t v : unit3 k -> 0 <= sin (t / 2) -> norm (vsub (rotate k t v) v) <= 2 * sin (t / 2) * norm v.
Proof.
  intros U S0. set (h := sin (t / 2)) in *. rewrite <- rot_rotate by auto.
  assert (H0 : 0 <= 2 * h * norm v) by (apply Rmult_le_pos; [lra | apply norm_nonneg]). apply norm_le_sq; [exact H0|].
  replace (2 * h * norm v * (2 * h * norm v)) with (4 * (h * h) * (norm v * norm v)) by ring. rewrite norm_sq.
  rewrite mvec_rot. assert (C1 : 1 - cos t = 2 * (h * h)).
  { replace t with (2 * (t / 2)) by field. rewrite cos_2a_sin. unfold h. replace (2 * (t / 2) / 2) with (t / 2) by field. ring. }
  set (s := sin t). set (c := cos t) in *.
  assert (E : dot (vsub (vadd (vadd v (vscale s (cross k v))) (vscale (1 - c) (cross k (cross k v)))) v)
                  (vsub (vadd (vadd v (vscale s (cross k v))) (vscale (1 - c) (cross k (cross k v)))) v)
            = (s * s + (1 - c) * (1 - c) * dot k k) * (dot k k * dot v v - dot k v * dot k v)) by la_ring.
  rewrite E. unfold unit3, norm2 in U. rewrite U. pose proof (sin2_cos2 t) as SC. unfold Rsqr in SC. fold s in SC. fold c in SC.
  replace (s * s + (1 - c) * (1 - c) * 1) with (2 * (1 - c)) by lra. rewrite C1.
  replace (2 * (2 * (h * h))) with (4 * (h * h)) by ring. apply Rmult_le_compat_l; [nra|].
  assert (0 <= dot k v * dot k v) by nra. lra.
Qed.
(** A tolerance of at most 9e-7: every point of the tool. *)
Theorem C103_fine : forall L bdot d s pinv, libm_ok L (bpow radix2 (-52)) -> libm_atan2_ok L (bpow radix2 (-50)) -> In bdot b_dots -> 0 <= d ->
  bpow radix2 (-1000) <= s <= 1 ->
  let A := b64_arith L bdot in
  forall (rf : grobot A) r ptool (posef : gtf A) pose (seed : list b64) m Kp KR (tol : b64) (q : list b64),
  represents (A := A) bfin bval d rf r -> wf_robot r -> wf_aux r -> rep_tf (A := A) bval d posef pose -> tfin (A := A) bfin posef ->
  let err := INR (length (rtype r) + 3) * (100 * d + bpow radix2 (-42)) in err <= bpow radix2 (-31) ->
  bfin tol -> bpow radix2 (-1000) <= bval tol <= 9 / 10000000 ->
  g_iterative_invkin A b_rem pinv rf ptool posef seed m Kp KR tol = Ok (true, q) ->
  exists p T, length p = length (rtype r) /\ Forall bfin p /\ fwdkin r (map bval p) true = Ok T /\
    (forall x, norm (vsub (act T x) (act pose x)) <= 2 * bval tol + err * span s r (map bval p) + (7 / 1000000 + 140 * err) * norm x) /\
    length q = length p /\
    forall i (x y : b64), nth_error p i = Some x -> nth_error q i = Some y -> bfin y ->
      exists n, Rabs (bval y - (bval x + 2 * PI * IZR n)) <= uu * (3 * Rabs (bval x) + 24 * Rabs (IZR n) + 60).
Proof.
  intros L bdot d s pinv HL HA HD Hd Hs A rf r ptool posef pose seed m Kp KR tol q Hr W WA HP FP err Herr Ft Htol H.
  destruct (C103_reached L bdot d s pinv HL HA HD Hd Hs rf r ptool posef pose seed m Kp KR tol q Hr W WA HP FP Herr Ft ltac:(lra) H)
    as (p & T & k & t & LP & Fp & EF & (U & Ht & TU) & NP & [SM | (_ & _ & X)] & LQ & HN); [|lra]. fold err in NP, SM.
  exists p, T. repeat (split; [assumption|]). split; [|split; assumption]. intros x.
  assert (E0 : 0 <= err) by (unfold err; apply Rmult_le_pos; [apply pos_INR | pose proof (bpow_ge_0 radix2 (-42)); lra]).
  assert (SP : 0 <= sin (t / 2)) by (apply sin_ge_0; lra).
  rewrite Rmax_right in SM by lra. destruct SM as (S0 & S1 & S2).
  pose proof (norm_entries (vscale (sin (t / 2)) k) (2 / 1000000 + 40 * err) ltac:(lra) ltac:(lra) ltac:(lra) ltac:(lra)) as NE.
  rewrite norm_vscale, (norm_unit k U), Rabs_right in NE by lra.
  destruct HP as (RP & _). unfold act. rewrite TU.
  replace (vsub (vadd (mvec (tR pose) (rotate k t x)) (tp T)) (vadd (mvec (tR pose) x) (tp pose))) with (vadd (mvec (tR pose) (vsub (rotate k t x) x)) (vsub (tp T) (tp pose))) by la_ring.
  eapply Rle_trans; [apply norm_triangle|]. rewrite norm_SO3 by exact RP. pose proof (half_moves k t x U SP) as HM.
  assert (2 * sin (t / 2) * norm x <= (7 / 1000000 + 140 * err) * norm x) by (apply Rmult_le_compat_r; [apply norm_nonneg | lra]). lra.
Qed.
Print Assumptions C103_fine.

(** Turning joints: the joints that are returned. *)
Theorem C103_result : forall L bdot d s pinv, libm_ok L (bpow radix2 (-52)) -> libm_atan2_ok L (bpow radix2 (-50)) -> In bdot b_dots -> 0 <= d ->
  bpow radix2 (-1000) <= s <= 1 ->
  let A := b64_arith L bdot in
  forall (rf : grobot A) r ptool (posef : gtf A) pose (seed : list b64) m Kp KR (tol : b64) (q : list b64),
  represents (A := A) bfin bval d rf r -> wf_robot r -> wf_aux r -> rep_tf (A := A) bval d posef pose -> tfin (A := A) bfin posef ->
  let err := INR (length (rtype r) + 3) * (100 * d + bpow radix2 (-42)) in err <= bpow radix2 (-31) ->
  bfin tol -> bpow radix2 (-1000) <= bval tol <= 9 / 10000000 -> Forall (fun j => turning j = true) (rtype r) ->
  g_iterative_invkin A b_rem pinv rf ptool posef seed m Kp KR tol = Ok (true, q) -> Forall bfin q ->
  exists p T, length p = length (rtype r) /\ Forall bfin p /\ fwdkin r (map bval q) true = Ok T /\
    forall B x, Forall (fun t => Rabs (bval t) <= B) p -> Forall (fun t => Rabs (bval t) <= B) q ->
    norm (vsub (act T x) (act pose x)) <= 2 * bval tol + err * span s r (map bval p) + (7 / 1000000 + 140 * err) * norm x +
      INR (length (rtype r)) * (uu * (12 * B + 64) * Rmax 1 (arm_length (rtype r) (tl (rP r)) (map bval p) (norm (act_opt (rflange r) (act_tool r x))))).
Proof.
  intros L bdot d s pinv HL HA HD Hd Hs A rf r ptool posef pose seed m Kp KR tol q Hr W WA HP FP err Herr Ft Htol TY H Fq.
  destruct (C103_fine L bdot d s pinv HL HA HD Hd Hs rf r ptool posef pose seed m Kp KR tol q Hr W WA HP FP Herr Ft Htol H)
    as (p & T & LP & Fp & EF & MV & LQ & HN). fold err in MV.
  assert (EQ : exists T', fwdkin r (map bval q) true = Ok T').
  { assert (LQ' : length (map bval q) = length (rtype r)) by exact (eq_trans (map_length bval q) (eq_trans LQ LP)). eexists. apply fwdkin_ignore; [exact W|]. rewrite LQ'. auto. }
  destruct EQ as [T' EQ]. exists p, T'. repeat (split; [assumption|]). intros B x Bp Bq.
  assert (D0 : 0 <= B \/ rtype r = []).
  { destruct p as [|a p]; [right; destruct (rtype r); [reflexivity | discriminate]|]. left. inversion_clear Bp. pose proof (Rabs_pos (bval a)). lra. }
  rewrite Forall_forall in Bp, Bq, Fq.
  assert (NT : near_turns (uu * (12 * B + 64)) (rtype r) (map bval q) (map bval p)).
  { apply near_list; [exact TY | exact (eq_trans (map_length bval q) (eq_trans LQ LP)) | rewrite map_length; exact LP|].
    intros i vy vx Hy Hx. rewrite nth_error_map in Hy, Hx. destruct (nth_error q i) as [y|] eqn:EY; [|discriminate]. destruct (nth_error p i) as [z|] eqn:EX; [|discriminate].
    injection Hy as <-. injection Hx as <-. destruct (HN i z y EX EY (Fq y (nth_error_In _ _ EY))) as (n & Hn). exists n.
    exact (whole_near _ _ B n Hn (Bp z (nth_error_In _ _ EX)) (Bq y (nth_error_In _ _ EY))). }
  assert (C : norm (vsub (act T' x) (act T x)) <= INR (length (rtype r)) * (uu * (12 * B + 64) * Rmax 1 (arm_length (rtype r) (tl (rP r)) (map bval p) (norm (act_opt (rflange r) (act_tool r x)))))).
  { destruct D0 as [D0 | D0].
    - apply (C88_near r (map bval q) (map bval p) true true T' T (uu * (12 * B + 64)) W WA EQ EF); [pose proof uu_pos; apply Rmult_le_pos; lra | exact NT].
    - rewrite D0 in *. destruct p; [|discriminate]. destruct q; [|discriminate]. cbn [map] in *. rewrite EQ in EF. injection EF as ->. cbn [length INR]. rewrite Rmult_0_l. replace (vsub (act T x) (act T x)) with vzero by la_ring. unfold norm, norm2, dot, vzero. cbn [vx vy vz]. right. replace (0*0+0*0+0*0) with 0 by ring. exact sqrt_0. }
  specialize (MV x). replace (vsub (act T' x) (act pose x)) with (vadd (vsub (act T' x) (act T x)) (vsub (act T x) (act pose x))) by la_ring.
  eapply Rle_trans; [apply norm_triangle|]. lra.
Qed.
Print Assumptions C103_result.

(* ---- runs of the program ---- *)
(** sin and cos at 0 and 2^-30, sin at half of np.pi, and arctan2 *)
Definition b_half : b64 := b_div b_pi (b_lit 2 1).
Definition half_libm : libm :=
  Libm (fun x => if is_num x b_half then b_ofZ 1 else m_sin table_libm x) (m_cos table_libm) (fun x => B754_nan)
       (fun y x => if is_num y b_zero then b_zero else if (is_num y b_tiny && is_num x (b_ofZ 1))%bool then b_tiny else m_atan2 arc_libm y x).
Lemma half_val : bval b_half = bval b_pi / 2. Proof. vm_compute. lra. Qed.
Lemma half_libm_ok : libm_ok half_libm (bpow radix2 (-52)).
Proof.
  assert (W : / 5000000000000000 <= bpow radix2 (-52)) by (cbn; lra). split; [|exact (proj2 table_libm_ok)].
  intros x. cbn [m_sin half_libm]. destruct (is_num x b_half) eqn:T; [|apply table_libm_ok]. apply is_num_val in T; [|reflexivity]. destruct T as [Fx Vx].
  intros _. split; [exact Fx|]. rewrite Vx, half_val, bval_int_1. pose proof b_pi_err as PE. pose proof uu_small as US.
  set (z := (PI - bval b_pi) / 2). replace (bval b_pi / 2) with (PI / 2 - z) by (unfold z; field). rewrite <- cos_shift.
  assert (Z0 : 0 < z <= uu) by (unfold z; lra). replace (PI / 2 - (PI / 2 - z)) with z by ring.
  pose proof (one_minus_cos z) as OC. pose proof (COS_bound z) as CB. rewrite Rabs_right by lra.
  assert (z * z <= uu * uu) by (apply Rmult_le_compat; lra).
  assert (uu * uu <= / 10000000000000000) by (rewrite uu_val'; lra). lra.
Qed.
Lemma half_atan2_ok : libm_atan2_ok half_libm (bpow radix2 (-50)).
Proof.
  intros y x Fy Fx H. cbn [m_atan2 half_libm]. destruct (is_num y b_zero) eqn:Z.
  - apply is_num_val in Z; [|reflexivity]. destruct Z as [_ V]. change (bval b_zero) with 0 in V. lra.
  - destruct (is_num y b_tiny && is_num x (b_ofZ 1))%bool eqn:T; [|exact (arc_atan2_ok y x Fy Fx H)]. apply andb_true_iff in T. destruct T as [T1 T2].
    apply is_num_val in T1; [|reflexivity]. apply is_num_val in T2; [|reflexivity]. destruct T1 as [_ V1]. destruct T2 as [_ V2]. split; [reflexivity|]. rewrite V1, V2, tiny_val, bval_int_1.
    set (t := / 1073741824). assert (T0 : 0 < t) by (unfold t; lra). assert (T1 : t <= 1) by (unfold t; lra). pose proof PI2_3_2 as P3.
    destruct (pre_sin_bound t 0 ltac:(lra) ltac:(unfold t; lra)) as [B1 _]. pose proof (sin_lt_x t T0) as B2. pose proof (one_minus_cos t) as OC. pose proof (COS_bound t) as CB.
    assert (S3 : t - t * t * t <= sin t) by (unfold sin_approx, sin_term in B1; cbn in B1; lra).
    assert (T2 : t * t <= / 1000000000000000000) by (unfold t; lra). assert (T3 : t * t * t <= / 1000000000000000000) by (unfold t; lra).
    pose proof (atan2_close (cos t) (sin t) 1 t (/ 1000000000000000000) t ltac:(lra) eq_refl eq_refl ltac:(lra) ltac:(lra) ltac:(rewrite Rabs_right; lra) ltac:(rewrite Rabs_right; lra)) as AC.
    rewrite Rabs_minus_sym. eapply Rle_trans; [exact AC|]. cbn. lra.
Qed.
Section Runs.
Context (bdot : list b64 -> list b64 -> b64).
Let A := b64_arith half_libm bdot.
Definition rzf (j1 j2 : jtype) : grobot A :=
  @GRb A [b_int3 0 0 1; b_int3 0 0 1] [b_int3 0 0 0; b_int3 0 0 0; b_int3 0 0 0] [j1; j2] None None None None None.
Lemma rzf_rep j1 j2 : represents (A := A) bfin bval 0 (rzf j1 j2) (rz j1 j2).
Proof.
  assert (AX : forall hf h, unit3 h -> SpecRound.vval (A := A) bval hf = h -> rep_axis (A := A) bval 0 hf h).
  { intros hf h U E. split; [exact U|]. rewrite E, norm_self. lra. }
  split; cbn [rzf rz grtype grH grP grlower grupper grtool grflange grbase rtype rH rP rlower rupper rflange rbase rep_opt]; try exact I.
  - reflexivity.
  - repeat (apply Forall2_cons || apply Forall2_nil); apply AX; unfold unit3, LinAlg.dot, SpecRound.vval, b_int3, ez; cbn [w0 w1 w2 vx vy vz]; b_int; try reflexivity; ring.
  - unfold SpecRound.vval, b_int3, vzero. cbn [map w0 w1 w2]. b_int. reflexivity.
Qed.
(** one iteration and the normalisation of its result, when nothing depends on pinv *)
Definition done_at (rf : grobot A) (posef : gtf A) (tol : b64) (q : list b64) : bool :=
  match g_fwdkin A rf q true, g_jacobian A rf None q true with
  | Ok cur, Ok _ => g_below A tol (g_turn_error A posef cur) && g_below A tol (g_place_error A posef cur)
  | _, _ => false
  end.
Definition kept (seed : list b64) (i : nat) (x : b64) : bool :=
  match g_normalize A b_rem (@GN A None (Some seed)) i x with Ok (Some y) => is_num y x | _ => false end.
Lemma kept_inv seed i x : kept seed i x = true -> exists y, g_normalize A b_rem (@GN A None (Some seed)) i x = Ok (Some y) /\ is_num y x = true.
Proof. unfold kept. destruct (g_normalize A b_rem (@GN A None (Some seed)) i x) as [[y|]|]; try discriminate. intros H. exists y. auto. Qed.
Lemma done_run pinv rf posef tol q m Kp KR : (forall J a b, exists d, pinv J a b = Ok d) -> done_at rf posef tol q = true ->
  g_iterative_loop A pinv rf None posef Kp KR tol (S m) q = Ok (true, q).
Proof.
  intros PV D. cbn [g_iterative_loop]. unfold done_at in D. unfold g_iterative_step.
  destruct (g_fwdkin A rf q true) as [cur|]; [|discriminate]. destruct (g_jacobian A rf None q true) as [J|]; [|discriminate]. cbn [bind].
  match goal with |- context [pinv ?a ?b ?c] => destruct (PV a b c) as [dl ->] end. cbn [bind].
  match goal with |- context [if ?b then Ok (true, q) else _] => replace b with true by (symmetry; exact D) end. reflexivity.
Qed.
Lemma kept_run pinv j1 j2 posef tol seed x y m Kp KR c : length seed = 2%nat -> bfin x -> bfin y ->
  g_iterative_loop A pinv (rzf j1 j2) None posef Kp KR tol m seed = Ok (c, [x; y]) -> (kept seed 0 x && kept seed 1 y)%bool = true ->
  exists q, g_iterative_invkin A b_rem pinv (rzf j1 j2) None posef seed m Kp KR tol = Ok (c, q) /\ Forall bfin q /\ map bval q = [bval x; bval y].
Proof.
  intros LS Fx Fy E K. unfold g_iterative_invkin. change (length (grtype (rzf j1 j2))) with 2%nat. 
  match goal with |- context [negb (Nat.eqb ?a 2)] => replace a with 2%nat by (symmetry; exact LS) end. cbn [Nat.eqb negb].
  rewrite E. cbn [bind fst snd combine seq map_out]. apply andb_true_iff in K. destruct K as [K0 K1].
  destruct (kept_inv _ _ _ K0) as (a & E0 & I0). destruct (kept_inv _ _ _ K1) as (b & E1 & I1). clear K0 K1. rename I0 into K0. rename I1 into K1.
  match goal with |- context [g_normalize A b_rem ?z 0 ?v] => replace (g_normalize A b_rem z 0 v) with (@Ok (option b64) (Some a)) by (symmetry; exact E0) end.
  match goal with |- context [g_normalize A b_rem ?z 1 ?v] => replace (g_normalize A b_rem z 1 v) with (@Ok (option b64) (Some b)) by (symmetry; exact E1) end.
  cbn [bind flat_map app]. apply (is_num_val _ _ Fx) in K0. apply (is_num_val _ _ Fy) in K1. destruct K0 as [F0 V0]. destruct K1 as [F1 V1].
  exists [a; b]. split; [reflexivity|]. split; [auto|]. cbn [map]. rewrite V0, V1. reflexivity.
Qed.
(** half a turn about (0, 5e-5, 1) *)
Definition half_c : b64 := b_lit 2559999990400000001 2560000003200000001.
Definition half_s : b64 := b_lit 255999999840000 2560000003200000001.
Definition half_pose : gtf A :=
  @GT A (W3 (b_int3 (-1) 0 0) (W3 (b_ofZ 0) (Bopp half_c) half_s) (W3 (b_ofZ 0) half_s half_c)) (b_int3 0 0 0).
(** the identity one unit up, and a step that goes there *)
Definition up_pose : gtf A := @GT A (W3 (b_int3 1 0 0) (b_int3 0 1 0) (b_int3 0 0 1)) (b_int3 0 0 1).
End Runs.
Lemma half_runs bdot : In bdot b_dots -> (done_at bdot (rzf bdot Rotary Rotary) (half_pose bdot) (b_lit 1 10000) [b_zero; b_zero] &&
  (kept bdot [b_zero; b_zero] 0 b_zero && kept bdot [b_zero; b_zero] 1 b_zero))%bool = true.
Proof. intros H. cbn [In b_dots] in H. repeat (destruct H as [<- | H]; [vm_compute; reflexivity|]). contradiction. Qed.

Lemma up_runs bdot : In bdot b_dots -> (done_at bdot (rzf bdot Rotary Rotary) (@GT (b64_arith half_libm bdot) (gR (up_pose bdot)) (b_int3 0 0 0)) (b_lit 1 10000000) [b_tiny; b_zero] &&
  (kept bdot [b_tiny; b_zero] 0 b_tiny && kept bdot [b_tiny; b_zero] 1 b_zero))%bool = true.
Proof. intros H. cbn [In b_dots] in H. repeat (destruct H as [<- | H]; [vm_compute; reflexivity|]). contradiction. Qed.
(** the pseudo-inverse of the two columns (z, 0) and (0, z) *)
Definition pinv_zz {A : arith} : list (gcol A) -> v3 (num A) -> v3 (num A) -> out (list (num A)) := fun _ a b => Ok [w2 a; w2 b].
Definition b_eye : m3 b64 := W3 (b_int3 1 0 0) (b_int3 0 1 0) (b_int3 0 0 1).
Definition is_ok2 (o : out (bool * list b64)) (x y : b64) : bool := match o with Ok (true, [a; b]) => (is_num a x && is_num b y)%bool | _ => false end.
Lemma step_runs bdot : In bdot b_dots ->
  is_ok2 (g_iterative_invkin (b64_arith half_libm bdot) b_rem pinv_zz (rzf bdot Rotary Prismatic) None (up_pose bdot) [b_zero; b_zero] 2 b_eye b_eye (b_lit 1 10000000)) b_zero (b_ofZ 1) = true.
Proof. intros H. cbn [In b_dots] in H. repeat (destruct H as [<- | H]; [vm_compute; reflexivity|]). contradiction. Qed.
Lemma tol_range : bpow radix2 (-1000) <= bval (b_lit 1 10000000) <= 9 / 10000000.
Proof. split; [|vm_compute; lra]. apply Rle_trans with (bpow radix2 (-30)); [apply bpow_le; lia | vm_compute; lra]. Qed.
Lemma SO3_I : is_SO3 I3. Proof. split; [la_ring | unfold det, I3; cbn; ring]. Qed.
Lemma eye_rep bdot z p : SpecRound.vval (A := b64_arith half_libm bdot) bval z = p -> rep_tf (A := b64_arith half_libm bdot) bval 0 (@GT (b64_arith half_libm bdot) b_eye z) (Tf I3 p None None).
Proof.
  intros E. split; [exact SO3_I|]. split; [|exact E]. cbn [gR tR]. unfold SpecRound.mval, b_eye, b_int3. cbn [w0 w1 w2]. b_int.
  replace (msub _ _) with (mconst 0) by (unfold mconst, I3; la_ring). pose proof (frob_mconst 0). lra.
Qed.
Lemma int3_val bdot z : (z = 0 \/ z = 1)%Z -> SpecRound.vval (A := b64_arith half_libm bdot) bval (b_int3 0 0 z) = V3 0 0 (IZR z).
Proof. intros [-> | ->]; unfold SpecRound.vval, b_int3; cbn [w0 w1 w2]; b_int; reflexivity. Qed.

Lemma half_frob c s c0 s0 e : Rabs (c - c0) <= e -> Rabs (s - s0) <= e ->
  frob (msub (M3 (-1) 0 0 0 (- c) s 0 s c) (M3 (-1) 0 0 0 (- c0) s0 0 s0 c0)) <= 3 * e.
Proof.
  intros C D. assert (E0 : 0 <= e) by (pose proof (Rabs_pos (c - c0)); lra). eapply Rle_trans; [apply (frob_mono _ (mconst e))|apply frob_mconst; exact E0].
  unfold mle, vle, mabs, mconst, msub, row0, row1, row2. cbn [vx vy vz m00 m01 m02 m10 m11 m12 m20 m21 m22].
  assert (Z : forall x, Rabs (x - x) <= e) by (intros x; rewrite Rminus_diag_eq by reflexivity; rewrite Rabs_R0; exact E0).
  replace (- c - - c0) with (- (c - c0)) by ring. rewrite Rabs_Ropp. repeat split; auto.
Qed.
Lemma half_pose_val bdot : SpecRound.mval (A := b64_arith half_libm bdot) bval (gR (half_pose bdot)) = M3 (-1) 0 0 0 (- bval half_c) (bval half_s) 0 (bval half_s) (bval half_c).
Proof. unfold SpecRound.mval, half_pose, b_int3. cbn [gR w0 w1 w2]. b_int. f_equal. apply B2R_Bopp. Qed.
Lemma half_c_val : Rabs (bval half_c - 2559999990400000001 / 2560000003200000001) <= bpow radix2 (-50).
Proof. apply Rabs_le. vm_compute. lra. Qed.
Lemma half_s_val : Rabs (bval half_s - 255999999840000 / 2560000003200000001) <= bpow radix2 (-50).
Proof. apply Rabs_le. vm_compute. lra. Qed.
Lemma half_rot : rot (V3 0 (80000/1600000001) (1599999999/1600000001)) PI =
  M3 (-1) 0 0 0 (- (2559999990400000001 / 2560000003200000001)) (255999999840000 / 2560000003200000001) 0 (255999999840000 / 2560000003200000001) (2559999990400000001 / 2560000003200000001).
Proof. unfold rot. rewrite sin_PI, cos_PI. unfold madd, mscale, mmul, hat, I3; cbn. f_equal; field. Qed.

(** A coarser tolerance: half a turn away and reported as reached, for every pseudo-inverse. *)
Theorem C103_half_turn_refuted : exists L, libm_ok L (bpow radix2 (-52)) /\ libm_atan2_ok L (bpow radix2 (-50)) /\
  forall bdot, In bdot b_dots -> let A := b64_arith L bdot in
  exists (rf : grobot A) r (posef : gtf A) pose (seed : list b64) k T (tol : b64),
  represents (A := A) bfin bval 0 rf r /\ wf_robot r /\ wf_aux r /\ Forall (fun j => j = Rotary) (rtype r) /\
  rep_tf (A := A) bval (bpow radix2 (-48)) posef pose /\ tfin (A := A) bfin posef /\ Forall bfin seed /\ bfin tol /\ bval tol <= 11 / 100000 /\
  fwdkin r (map bval seed) true = Ok T /\ turned pose T k PI /\
  forall pinv m Kp KR, (forall J a b, exists d, pinv J a b = Ok d) ->
  exists q : list b64, g_iterative_invkin A b_rem pinv rf None posef seed (S m) Kp KR tol = Ok (true, q) /\ map bval q = map bval seed.
Proof.
  exists half_libm. split; [exact half_libm_ok|]. split; [exact half_atan2_ok|]. intros bdot HD A.
  set (k := V3 0 (80000/1600000001) (1599999999/1600000001)).
  assert (U : unit3 k) by (unfold unit3, LinAlg.dot, k; simpl; lra).
  destruct (rz_fk Rotary 0 0 ltac:(auto)) as (T & F & H & _). destruct (H eq_refl) as [TR _]. rewrite Rplus_0_r, rot_0 in TR. clear H.
  exists (rzf bdot Rotary Rotary), (rz Rotary Rotary), (half_pose bdot), (Tf (rot k PI) vzero None None), [b_zero; b_zero], k, T, (b_lit 1 10000).
  split; [apply rzf_rep|]. split; [apply rz_wf|]. split; [apply rz_aux|]. split; [repeat constructor|]. split.
  { split; [apply rot_SO3; exact U|]. split; [|unfold SpecRound.vval; cbn [half_pose gp b_int3 w0 w1 w2 tp]; unfold b_int3; cbn [w0 w1 w2]; b_int; reflexivity].
    match goal with |- frob (msub ?x _) <= _ => replace x with (M3 (-1) 0 0 0 (- bval half_c) (bval half_s) 0 (bval half_s) (bval half_c)) by (symmetry; exact (half_pose_val bdot)) end. cbn [tR]. unfold k. rewrite half_rot. eapply Rle_trans; [exact (half_frob _ _ _ _ _ half_c_val half_s_val)|]. cbn. lra. }
  split. { unfold tfin, mfin, vfin, half_pose, b_int3. cbn [gR gp w0 w1 w2]. repeat split; vm_compute; reflexivity. }
  split; [repeat constructor|]. split; [reflexivity|]. split; [vm_compute; lra|]. split; [exact F|]. split.
  { assert (INV : mT (rot k PI) = rot k PI).
    { rewrite rot_T. unfold rot. rewrite sin_neg, cos_neg, sin_PI. replace (- 0) with 0 by ring. reflexivity. }
    pose proof PI_pos as PP. split; [exact U|]. split; [lra|]. intros x. rewrite TR, <- rot_rotate by auto. cbn [tR]. rewrite <- INV at 1. rewrite SO3_T_vec by (apply rot_SO3; auto). apply mvec_I. }
  intros pinv m Kp KR PV. pose proof (half_runs bdot HD) as HR. apply andb_true_iff in HR. destruct HR as [H1 H2].
  destruct (kept_run bdot pinv Rotary Rotary (half_pose bdot) (b_lit 1 10000) [b_zero; b_zero] b_zero b_zero (S m) Kp KR true eq_refl eq_refl eq_refl (done_run bdot pinv _ _ _ _ m Kp KR PV H1) H2) as (q & E & _ & V).
  exists q. split; [exact E | exact V].
Qed.
Print Assumptions C103_half_turn_refuted.

(** Two iterations up the last axis; the hypotheses of C103_reached and C103_fine. *)
Example C103_fine_ex : libm_ok half_libm (bpow radix2 (-52)) /\ libm_atan2_ok half_libm (bpow radix2 (-50)) /\
  forall bdot, In bdot b_dots -> let A := b64_arith half_libm bdot in
  let rf : grobot A := rzf bdot Rotary Prismatic in let r := rz Rotary Prismatic in let pose := Tf I3 (V3 0 0 1) None None in let tol := b_lit 1 10000000 in
  represents (A := A) bfin bval 0 rf r /\ wf_robot r /\ wf_aux r /\ rep_tf (A := A) bval 0 (up_pose bdot) pose /\ tfin (A := A) bfin (up_pose bdot) /\
  INR (length (rtype r) + 3) * (100 * 0 + bpow radix2 (-42)) <= bpow radix2 (-31) /\ bfin tol /\ bpow radix2 (-1000) <= bval tol <= 9 / 10000000 /\
  exists q : list b64, g_iterative_invkin A b_rem pinv_zz rf None (up_pose bdot) [b_zero; b_zero] 2 b_eye b_eye tol = Ok (true, q) /\ map bval q = [0; 1].
Proof.
  split; [exact half_libm_ok|]. split; [exact half_atan2_ok|]. intros bdot HD A rf r pose tol.
  split; [apply rzf_rep|]. split; [apply rz_wf|]. split; [apply rz_aux|]. split; [exact (eye_rep bdot _ _ (int3_val bdot 1 (or_intror eq_refl)))|].
  split. { unfold tfin, mfin, vfin, up_pose, b_int3. cbn [gR gp w0 w1 w2]. repeat split; reflexivity. }
  split; [cbn; lra|]. split; [reflexivity|]. split; [apply tol_range|].
  pose proof (step_runs bdot HD) as SR. destruct (g_iterative_invkin (b64_arith half_libm bdot) b_rem pinv_zz _ _ _ _ _ _ _ _) as [[[|] [|a [|b [|]]]]|] eqn:E; try discriminate SR.
  cbn [is_ok2] in SR. apply andb_true_iff in SR. destruct SR as [S0 S1]. apply is_num_val in S0; [|reflexivity]. apply is_num_val in S1; [|reflexivity].
  exists [a; b]. split; [exact E|]. cbn [map]. rewrite (proj2 S0), (proj2 S1), bval_int_1. reflexivity.
Qed.
(** Two turning joints, the first 2^-30 off the desired pose. *)
Example C103_result_ex : forall bdot, In bdot b_dots -> let A := b64_arith half_libm bdot in
  let rf : grobot A := rzf bdot Rotary Rotary in let r := rz Rotary Rotary in let posef := @GT A b_eye (b_int3 0 0 0) in let pose := Tf I3 vzero None None in let tol := b_lit 1 10000000 in
  represents (A := A) bfin bval 0 rf r /\ wf_robot r /\ wf_aux r /\ rep_tf (A := A) bval 0 posef pose /\ tfin (A := A) bfin posef /\
  INR (length (rtype r) + 3) * (100 * 0 + bpow radix2 (-42)) <= bpow radix2 (-31) /\ bfin tol /\ bpow radix2 (-1000) <= bval tol <= 9 / 10000000 /\
  Forall (fun j => turning j = true) (rtype r) /\
  exists q : list b64, g_iterative_invkin A b_rem pinv_zz rf None posef [b_tiny; b_zero] 1 b_eye b_eye tol = Ok (true, q) /\ Forall bfin q /\ map bval q = [/ 1073741824; 0].
Proof.
  intros bdot HD A rf r posef pose tol.
  split; [apply rzf_rep|]. split; [apply rz_wf|]. split; [apply rz_aux|]. split; [exact (eye_rep bdot _ _ (int3_val bdot 0 (or_introl eq_refl)))|].
  split. { unfold tfin, mfin, vfin, posef, b_eye, b_int3. cbn [gR gp w0 w1 w2]. repeat split; reflexivity. }
  split; [cbn; lra|]. split; [reflexivity|]. split; [apply tol_range|]. split; [repeat constructor|].
  pose proof (up_runs bdot HD) as HR. apply andb_true_iff in HR. destruct HR as [H1 H2].
  assert (PV : forall (J : list (gcol A)) a b, exists d, pinv_zz (A := A) J a b = Ok d) by (intros J a b; eexists; reflexivity).
  destruct (kept_run bdot pinv_zz Rotary Rotary posef tol [b_tiny; b_zero] b_tiny b_zero 1 b_eye b_eye true eq_refl eq_refl eq_refl (done_run bdot pinv_zz _ _ _ _ 0 b_eye b_eye PV H1) H2) as (q & E & Fq & V).
  exists q. split; [exact E|]. split; [exact Fq|]. rewrite V, tiny_val. reflexivity.
Qed.
