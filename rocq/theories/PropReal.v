(** The routines of ModelFloat read over the reals are those of ModelRot, ModelSub and ModelInvkin
    (the part of C79-C83 over the reals). *)
From Coq Require Import Reals ZArith List Bool Lia Lra.
From Verif Require Import LinAlg RealAux Py FactsReal FactsLinAlg ModelRot ModelTransform ModelRobot ModelSub ModelInvkin SpecRot PropRot SpecSub FactsSub PropSub ModelFloat SpecRound FactsRound FactsFloat.
Import ListNotations.
Open Scope R_scope.

Definition lst (v : vec3) : list R := [vx v; vy v; vz v].
Definition lstq (q : quat) : list R := [q0 q; q1 q; q2 q; q3 q].
Ltac rring := match goal with |- ?a = ?b => change (@eq R a b) end; ring.
Lemma real_dot a b : ndot real_arith (lst a) (lst b) = dot a b.
Proof. unfold lst, dot. cbn [ndot real_arith]. unfold dot_R. cbn [combine fold_right fst snd]. rring. Qed.
Lemma real_qdot a b : ndot real_arith (lstq a) (lstq b) = qdot a b.
Proof. unfold lstq, qdot. cbn [ndot real_arith]. unfold dot_R. cbn [combine fold_right fst snd]. rring. Qed.
Lemma real_norm a : l_norm real_arith (lst a) = norm a.
Proof. unfold l_norm. rewrite real_dot. reflexivity. Qed.
Lemma real_qnorm a : l_norm real_arith (lstq a) = qnorm a.
Proof. unfold l_norm. rewrite real_qdot. reflexivity. Qed.
Lemma real_lsub a b : l_sub real_arith (lst a) (lst b) = lst (vsub a b). Proof. reflexivity. Qed.
Lemma real_ladd a b : l_add real_arith (lst a) (lst b) = lst (vadd a b). Proof. reflexivity. Qed.
Lemma real_lscale s a : l_scale real_arith s (lst a) = lst (vscale s a). Proof. reflexivity. Qed.
Lemma real_ldiv a s : l_div real_arith (lst a) s = lst (vdiv a s). Proof. reflexivity. Qed.
Lemma real_lcross a b : l_cross real_arith (lst a) (lst b) = lst (cross a b). Proof. reflexivity. Qed.
Lemma IZR_pow2 n : IZR (2 ^ Z.of_nat n) = 2 ^ n.
Proof. rewrite <- pow_IZR. reflexivity. Qed.
Lemma real_eps : neps real_arith = eps.
Proof.
  unfold neps, eps. cbn [nlit real_arith]. unfold Rdiv. rewrite Rmult_1_l. change (2 ^ 52)%Z with (2 ^ Z.of_nat 52)%Z.
  rewrite IZR_pow2. reflexivity.
Qed.
Lemma real_sqrt_eps : nsqrt_eps real_arith = sqrt_eps.
Proof.
  unfold nsqrt_eps, sqrt_eps. cbn [nlit real_arith]. unfold Rdiv. rewrite Rmult_1_l. change (2 ^ 26)%Z with (2 ^ Z.of_nat 26)%Z.
  rewrite IZR_pow2. reflexivity.
Qed.
Lemma real_two : nlit real_arith 2 1 = 2.
Proof. cbn [nlit real_arith]. match goal with |- ?a = ?b => change (@eq R a b) end. lra. Qed.

(** C79.  subproblem0 and subproblem1: wherever the model over the reals has a number, the generic
    text gives it. *)
Theorem C79_reals0 : forall p q k t, subproblem0 p q k = Ok (Fin t) -> g_subproblem0 real_arith (lst p) (lst q) (lst k) = Ok t.
Proof.
  intros p q k t. unfold subproblem0, g_subproblem0. rewrite !real_dot, real_eps. cbn [nlt real_arith].
  destruct (assert_ _); [|discriminate]. cbn [bind]. destruct (_ || _)%bool; [discriminate|].
  rewrite !real_norm, !real_ldiv, real_lsub, real_ladd, !real_norm, real_lcross, real_dot, real_two, real_lit0. cbv zeta.
  cbn [nmul natan2 nneg real_arith]. destruct (Rltb _ 0); intros [= <-]; reflexivity.
Qed.
Theorem C79_reals : forall p q k t, subproblem1 p q k = Ok t -> g_subproblem1 real_arith (lst p) (lst q) (lst k) = Ok t.
Proof.
  intros p q k t. unfold subproblem1, g_subproblem1. rewrite real_lsub, !real_norm, real_sqrt_eps, real_lit0. cbn [nlt real_arith].
  destruct (Rltb _ sqrt_eps); [auto|]. destruct (Reqb _ 0); [discriminate|]. cbv zeta.
  rewrite real_ldiv, !real_dot, !real_lscale, !real_lsub, !real_norm, !real_ldiv.
  destruct (_ || _)%bool; [discriminate|]. destruct (subproblem0 _ _ _) as [[s|]|e] eqn:E; cbn [bind]; try discriminate.
  intros [= <-]. exact (C79_reals0 _ _ _ _ E).
Qed.
(** C82.  subproblem3, unless a vector is parallel to the axis. *)
Theorem C82_reals : forall p q k d l, vsub p (vscale (dot p k) k) <> vzero -> vsub q (vscale (dot q k) k) <> vzero ->
  subproblem3 p q k d = Ok l -> g_subproblem3 real_arith (lst p) (lst q) (lst k) d = Ok l.
Proof.
  intros p q k d l Np Nq. unfold subproblem3, g_subproblem3. rewrite !real_dot, !real_lscale, !real_lsub, !real_dot, !real_norm, real_ladd, real_dot, !real_ldiv, real_two, real_lit0, real_lit1.
  cbv zeta. cbn [nlt nneg nadd nsub nmul ndiv nabs nacos real_arith].
  set (pp := vsub p (vscale (dot p k) k)) in *. set (qp := vsub q (vscale (dot q k) k)) in *.
  destruct (Rltb _ 0); [auto|]. cbn [orb].
  assert (D : Reqb (2 * norm pp * norm qp) 0 = false).
  { apply Reqb_false. pose proof (norm_pos pp Np). pose proof (norm_pos qp Nq).
    apply Rmult_integral_contrapositive_currified; [|lra]. apply Rmult_integral_contrapositive_currified; lra. }
  rewrite D. destruct (Rltb 1 _); [auto|]. destruct (subproblem1 _ _ _) as [t|] eqn:E; cbn [bind]; [|discriminate].
  rewrite (C79_reals _ _ _ _ E). cbn [bind]. destruct (Rltb 0 _); auto.
Qed.
(** C80.  slerp. *)
Theorem C80_reals : forall a b t q, slerp a b t = Ok (Fin q) -> g_slerp real_arith (lstq a) (lstq b) t = Ok (lstq q).
Proof.
  intros a b t q. unfold slerp, g_slerp. rewrite real_lit0, real_lit1. cbn [nle real_arith].
  destruct (assert_ _); [|discriminate]. cbn [bind]. destruct (_ || _)%bool; [discriminate|]. rewrite !real_qnorm. cbv zeta.
  change (l_div real_arith (lstq a) (qnorm a)) with (lstq (qdiv a (qnorm a))).
  change (l_div real_arith (lstq b) (qnorm b)) with (lstq (qdiv b (qnorm b))).
  set (a1 := qdiv a (qnorm a)). set (b1 := qdiv b (qnorm b)). rewrite !real_qdot. cbn [nlt real_arith].
  assert (E : (if Rltb (qdot a1 b1) 0 then l_neg real_arith (lstq a1) else lstq a1) = lstq (if Rltb (qdot a1 b1) 0 then qneg a1 else a1)).
  { destruct (Rltb _ 0); reflexivity. }
  rewrite E. set (a2 := if Rltb _ 0 then qneg a1 else a1). rewrite !real_qdot. cbn [nacos nabs nlit real_arith].
  replace (IZR 1 / IZR 1000000) with (1 / 1000000) by reflexivity.
  destruct (Rltb (Rabs _) _); [intros [= <-]; reflexivity|]. destruct (Reqb (sin _) 0); [discriminate|].
  destruct (Reqb _ 0); [discriminate|]. intros [= <-].
  cbn [nsin nmul nsub real_arith].
  match goal with |- Ok (l_div _ ?x _) = _ => change x with (lstq (qdiv (qadd (qscale (sin ((1 - t) * acos (qdot a2 b1))) a2) (qscale (sin (t * acos (qdot a2 b1))) b1)) (sin (acos (qdot a2 b1))))) end.
  rewrite real_qnorm. reflexivity.
Qed.
(** C83.  R2rot. *)
Theorem C83_reals : forall A k t, R2rot A = Fin (k, t) -> g_R2rot real_arith (emb_m A) = (emb_v (axis_vec k), t).
Proof.
  intros A k t. unfold R2rot, g_R2rot. cbv zeta.
  set (R1 := msub A (mT A)).
  match goal with |- context [l_norm real_arith [w0 (w0 ?x); _; _; _; _; _; _; _; _]] => change x with (emb_m R1) end.
  match goal with |- context [l_norm real_arith ?x] => assert (E2 : l_norm real_arith x = sqrt (frob2 R1)) end.
  { unfold l_norm, frob2. cbn [ndot nsqrt real_arith]. f_equal. destruct R1. cbn. rring. }
  rewrite E2. clear E2. rewrite !real_lit0, !real_lit1, real_two, real_I3. cbn [nlt ndiv nsqrt nlit nadd nsub nmul nabs natan2 npi real_arith].
  replace (IZR 8 / IZR 1) with 8 by (cbn; lra).
  change (w0 (w0 (emb_m A))) with (m00 A). change (w1 (w1 (emb_m A))) with (m11 A). change (w2 (w2 (emb_m A))) with (m22 A).
  change (m00 A + m11 A + m22 A - 1) with (trace A - 1).
  set (st := sqrt (frob2 R1) / sqrt 8). set (ct := (trace A - 1) / 2).
  destruct (Rltb st (1 / 1000000)).
  - destruct (Rltb 0 ct); [intros [= <- <-]; reflexivity|].
    match goal with |- context [sqrt (w0 (w0 ?x))] => change x with (emb_m (mscale (1 / 2) (madd A I3))) end.
    set (B := mscale (1 / 2) (madd A I3)).
    change (w0 (w0 (emb_m B))) with (m00 B). change (w1 (w1 (emb_m B))) with (m11 B). change (w2 (w2 (emb_m B))) with (m22 B).
    change (w1 (w0 (emb_m B))) with (m01 B). change (w2 (w0 (emb_m B))) with (m02 B).
    assert (SG : forall x, g_sign real_arith x = sgn x).
    { intros x. unfold g_sign, sgn. rewrite real_lit0, real_lit1. cbn [nlt nneg nmul real_arith].
      destruct (Rltb x 0) eqn:L.
      - apply Rltb_true in L. rewrite (Rltb_ge 0 x) by lra. rring.
      - destruct (Rltb 0 x); rring. }
    rewrite !SG. destruct (_ || _)%bool; [discriminate|].
    destruct (Rltb _ (Rabs (sqrt (m00 B)))); [intros [= <- <-]; reflexivity|].
    destruct (Rltb _ (Rabs (sqrt (m11 B)))); intros [= <- <-]; reflexivity.
  - intros [= <- <-]. f_equal. cbn [axis_vec]. unfold g_invhat, invhat. rewrite real_two. reflexivity.
Qed.
(** C81.  The alternatives of one angle. *)
Theorem C81_reals : forall r lower upper theta, rtype r = [Rotary] -> rlower r = Some [lower] -> rupper r = Some [upper] ->
  equiv1 r [theta] = Ok (map (fun x => [x]) (g_equiv1 real_arith lower upper theta)).
Proof.
  intros r lower upper theta Et El Eu. unfold equiv1. rewrite El, Eu, Et. cbn [length Nat.eqb andb combine map fst snd seq fold_left].
  apply (f_equal (@Ok (list (list R)))). unfold equiv_step. cbn [nth nth_error app]. unfold g_equiv1. cbv zeta. rewrite real_two. cbn [nfloor nmul nadd nsub npi nofZ real_arith].
  set (u := floor_div (upper - theta) (2 * PI)). set (l := floor_div (theta - lower) (2 * PI)).
  assert (S1 : forall s n, shifts [theta] [] 0 s n = map (fun j => [theta + s * (2 * PI * INR (S j))]) (seq 0 (Z.to_nat n))).
  { intros s n. unfold shifts. cbn [app map]. induction (seq 0 (Z.to_nat n)) as [|j js IH]; [reflexivity|].
    cbn [flat_map map app]. rewrite IH. reflexivity. }
  assert (S2 : forall j, IZR (Z.of_nat j + 1) = INR (S j)).
  { intros j. rewrite S_INR, INR_IZR_INZ, plus_IZR. reflexivity. }
  rewrite map_app, !map_map. destruct (Z.ltb 0 u || Z.ltb 0 l)%bool eqn:E.
  - assert (Q : forall a a' b b' : list (list R), a = a' -> b = b' -> a ++ b = a' ++ b') by (intros a a' b b' -> ->; reflexivity).
    rewrite !S1. apply Q; apply map_ext; intros j; rewrite S2; (assert (Q1 : forall x y : R, x = y -> [x] = [y]) by (intros x y ->; reflexivity)); apply Q1; rring.
  - apply orb_false_elim in E as (E1 & E2). apply Z.ltb_ge in E1, E2. destruct u, l; try lia; reflexivity.
Qed.

(** The models do give numbers there. *)
Example C79_reals_ex : exists t, subproblem1 (V3 1 2 3) (rotate (dir (V3 0 0 2)) 1 (V3 1 2 3)) (V3 0 0 2) = Ok t.
Proof. destruct C28_subproblem1_solves_ex as (t & E & _). exists t. exact E. Qed.
Example C82_reals_ex : exists l t, subproblem3 ex ey ez 1 = Ok l /\ In t l /\ vsub ex (vscale (dot ex ez) ez) <> vzero /\ vsub ey (vscale (dot ey ez) ez) <> vzero.
Proof.
  destruct C31_subproblem3_sound_ex as (l & t & E & I & _). exists l, t. split; [exact E|]. split; [exact I|].
  split; intros X; injection X; cbn; lra.
Qed.
Example C80_reals_ex : exists q, slerp q_ex (qscale 3 qone) (1/2) = Ok (Fin q).
Proof. destruct C14_ex as (A & B & _). destruct (C14_slerp_unit q_ex (qscale 3 qone) (1/2)) as (q & E & _); [lra|exact A|exact B|]. exists q. exact E. Qed.
Example C83_reals_ex : exists k t, R2rot (rot k_ex (PI/6)) = Fin (k, t) /\ t = PI/6.
Proof. destruct C04_ex as (A & B & C). exists (NdArray k_ex), (PI/6). split; [exact (C04_R2rot_exact k_ex (PI/6) A B C)|reflexivity]. Qed.
Print Assumptions C79_reals.
Print Assumptions C80_reals.
Print Assumptions C81_reals.
Print Assumptions C82_reals.
Print Assumptions C83_reals.
