(** Property C100: a pose that passes repeatedly through a ROS message (and C98_message: once). *)
From Coq Require Import Reals ZArith List Bool Lra Lia Psatz.
From Flocq Require Import Core.Core IEEE754.BinarySingleNaN.
From Verif Require Import LinAlg RealAux Py FactsReal FactsLinAlg ModelRot SpecRot FactsRot FactsRot2 FactsNorm ModelFloat ModelFloat4 ModelFloat5 SpecRound FactsRound FactsFloat FactsB64 FactsExact PropNorm FactsTrack SpecArc SpecArc2 SpecQuat64 SpecDrift FactsAngle FactsSumsq FactsNear PropElbow PropSlerp PropAngle PropR2rot PropRot PropQuat64 FactsTrip FactsDrift.
Import ListNotations.
Open Scope R_scope.
Local Notation near := SpecArc2.near.
Local Notation near_weak := FactsNear.near_weak.

Lemma trips_S A n (M : m3 (num A)) p : trips A (S n) (GT M p) = let* x := g_R2q A M in trips A n (GT (g_q2R A x) p).
Proof. cbn [trips]. unfold g_transform2msg, g_R2msg. cbn [gR gp]. destruct (g_R2q A M) as [[x0 x1 x2 x3]|]; reflexivity. Qed.

(* ---- values of stored quaternions ---- *)
Definition vq (x : v4 b64) : quat := Q4 (bval (y0 x)) (bval (y1 x)) (bval (y2 x)) (bval (y3 x)).
Definition off (d : R) (q u : quat) : Prop := Rabs (q0 q - q0 u) <= d /\ Rabs (q1 q - q1 u) <= d /\ Rabs (q2 q - q2 u) <= d /\ Rabs (q3 q - q3 u) <= d.
Lemma vq_off d x u : stored_quat d x u -> stored_quat 0 x (vq x) /\ off d (vq x) u.
Proof.
  intros ((F0 & E0) & (F1 & E1) & (F2 & E2) & F3 & E3).
  split; [|unfold off; cbn [vq q0 q1 q2 q3]; auto].
  unfold stored_quat. cbn [vq q0 q1 q2 q3]. split; [|split; [|split]]; (apply near_exact; [lra | assumption | reflexivity]).
Qed.
Lemma off_stored d h x q u : stored_quat h x q -> off d q u -> stored_quat (d + h) x u.
Proof.
  intros ((F0 & E0) & (F1 & E1) & (F2 & E2) & F3 & E3) (D0 & D1 & D2 & D3).
  assert (G : forall a b c, Rabs (a - b) <= h -> Rabs (b - c) <= d -> Rabs (a - c) <= d + h). { intros a b c X Y. apply Rabs_le_inv in X. apply Rabs_le_inv in Y. apply Rabs_le. lra. }
  repeat split; try assumption; eapply G; eassumption.
Qed.
Lemma off_neg d q u : off d q u -> off d (qneg q) (qneg u).
Proof.
  unfold off, qneg. cbn [q0 q1 q2 q3]. intros (A & B & C & D).
  assert (G : forall a b, Rabs (a - b) <= d -> Rabs (- a - - b) <= d). { intros a b X. replace (- a - - b) with (- (a - b)) by ring. rewrite Rabs_Ropp. exact X. }
  repeat split; apply G; assumption.
Qed.
Lemma qneg_neg q : qneg (qneg q) = q. Proof. destruct q as [a b c d]. unfold qneg. cbn [q0 q1 q2 q3]. f_equal; ring. Qed.
Lemma sq_off d a b : Rabs (a - b) <= d -> Rabs b <= 1 -> d <= 1 / 100 -> Rabs (a * a - b * b) <= 201 / 100 * d.
Proof.
  intros H B D. replace (a * a - b * b) with ((a - b) * (a - b + 2 * b)) by ring. rewrite Rabs_mult. pose proof (Rabs_pos (a - b)). rewrite (Rmult_comm (201 / 100)).
  apply Rmult_le_compat; try apply Rabs_pos; [exact H|]. eapply Rle_trans; [apply Rabs_triang|]. rewrite Rabs_mult, (Rabs_right 2); lra.
Qed.

(* ---- large angles: R2q returns the quaternion itself ---- *)
Definition vec2 (q : quat) : R := q1 q * q1 q + q2 q * q2 q + q3 q * q3 q.
Lemma vec2_neg q : vec2 (qneg q) = vec2 q. Proof. unfold vec2, qneg. cbn [q0 q1 q2 q3]. ring. Qed.
Lemma trace_vec2 q : trace (q2R q) = 3 - 4 * vec2 q. Proof. apply (trip_entries q). Qed.
Definition upto_sign (d : R) (x : v4 b64) (u : quat) : Prop := stored_quat d x u \/ stored_quat d x (qneg u).
Lemma large_step1 L bdot x u d : In bdot b_dots -> unit4 u -> 49 / 64 <= vec2 u -> 0 <= d <= 1 / 1024 -> stored_quat d x u ->
  exists x', g_R2q (b64_arith L bdot) (g_q2R (b64_arith L bdot) x) = Ok x' /\ upto_sign (d + 210 * uu) x' u.
Proof.
  intros HD U V Hd S. destruct (vq_off _ _ _ S) as [S0 O]. pose proof uu_pos as UP. assert (US : uu <= 1 / 1000000000000) by (rewrite uu_val'; lra). destruct (unit4_entry u U) as (B0 & B1 & B2 & B3).
  pose proof O as (O0 & O1 & O2 & O3). set (q := vq x) in *.
  pose proof (sq_off _ _ _ O0 B0 ltac:(lra)) as Q0. pose proof (sq_off _ _ _ O1 B1 ltac:(lra)) as Q1. pose proof (sq_off _ _ _ O2 B2 ltac:(lra)) as Q2. pose proof (sq_off _ _ _ O3 B3 ltac:(lra)) as Q3.
  apply Rabs_le_inv in Q0. apply Rabs_le_inv in Q1. apply Rabs_le_inv in Q2. apply Rabs_le_inv in Q3. unfold unit4, qdot in U. unfold vec2 in V.
  assert (Hn : 63 / 64 <= qdot q q <= 65 / 64) by (unfold qdot; lra).
  assert (C : forall a b, Rabs (a - b) <= d -> Rabs b <= 1 -> Rabs a <= 33 / 32). { intros a b X Y. apply Rabs_le_inv in X. apply Rabs_le_inv in Y. apply Rabs_le. lra. }
  pose proof (q2R_local L bdot x q HD S0 (C _ _ O0 B0) (C _ _ O1 B1) (C _ _ O2 B2) (C _ _ O3 B3)) as SM.
  destruct (R2q_other L bdot _ q (64 * uu) ltac:(lra) Hn SM ltac:(lra)) as (x' & E & [N|N]); exists x'; (split; [exact E|]).
  - left. eapply stored_quat_weak; [|apply (off_stored d _ _ _ _ N O)]. lra.
  - right. eapply stored_quat_weak; [|apply (off_stored d _ _ _ _ N (off_neg _ _ _ O))]. lra.
Qed.
Lemma large_step L bdot x u d : In bdot b_dots -> unit4 u -> 49 / 64 <= vec2 u -> 0 <= d <= 1 / 1024 -> upto_sign d x u ->
  exists x', g_R2q (b64_arith L bdot) (g_q2R (b64_arith L bdot) x) = Ok x' /\ upto_sign (d + 210 * uu) x' u.
Proof.
  intros HD U V Hd [S|S]; [eapply large_step1; eassumption|].
  destruct (large_step1 L bdot x (qneg u) d HD (unit4_neg _ U) ltac:(rewrite vec2_neg; exact V) Hd S) as (x' & E & [N|N]); exists x'; (split; [exact E|]); [right; exact N | left; rewrite qneg_neg in N; exact N].
Qed.
Lemma large_trips L bdot u p : In bdot b_dots -> unit4 u -> 49 / 64 <= vec2 u -> forall n x d, 0 <= d -> d + INR n * (210 * uu) <= 1 / 1024 -> upto_sign d x u ->
  exists x', trips (b64_arith L bdot) n (@GT (b64_arith L bdot) (g_q2R (b64_arith L bdot) x) p) = Ok (GT (g_q2R (b64_arith L bdot) x') p) /\ upto_sign (d + INR n * (210 * uu)) x' u.
Proof.
  intros HD U V. pose proof uu_pos as UP. induction n as [|n IH]; intros x d D B S.
  { exists x. split; [reflexivity|]. cbn [INR]. rewrite Rmult_0_l, Rplus_0_r. exact S. }
  rewrite S_INR in *. assert (P : 0 <= INR n * (210 * uu)) by (apply Rmult_le_pos; [apply pos_INR | lra]).
  destruct (large_step L bdot x u d HD U V ltac:(lra) S) as (x1 & E1 & S1).
  destruct (IH x1 (d + 210 * uu) ltac:(lra) ltac:(lra) S1) as (x' & E & S'). exists x'.
  split; [rewrite trips_S, E1; exact E|]. replace (d + (INR n + 1) * (210 * uu)) with (d + 210 * uu + INR n * (210 * uu)) by ring. exact S'.
Qed.

(* ---- small angles: the error of the norm contracts ---- *)
(** q = (p (1 + r), v) with |v|^2 = 1 - p^2 and v within t of the vector part of u *)
Definition state (f : R) (u q : quat) : Prop := exists p t r, 0 < p /\ vec2 q = 1 - p * p /\ q0 q = p * (1 + r) /\
  Rabs (q1 q - q1 u) <= t /\ Rabs (q2 q - q2 u) <= t /\ Rabs (q3 q - q3 u) <= t /\ t + 10 * Rabs r <= f.
Definition turned (q : quat) (p : R) : quat := Q4 p (q0 q * q1 q / p) (q0 q * q2 q / p) (q0 q * q3 q / p).

Lemma vec2_off t u q : vec2 u <= 15 / 32 -> 0 <= t <= 1 / 4096 -> Rabs (q1 q - q1 u) <= t -> Rabs (q2 q - q2 u) <= t -> Rabs (q3 q - q3 u) <= t ->
  Rabs (vec2 q - vec2 u) <= 42 / 10 * t /\ vec2 q <= 4703 / 10000 /\ Rabs (q1 q) <= 7 / 10 /\ Rabs (q2 q) <= 7 / 10 /\ Rabs (q3 q) <= 7 / 10.
Proof.
  intros V T D1 D2 D3. unfold vec2 in *. pose proof (Rle_0_sqr (q1 u)) as Z1. pose proof (Rle_0_sqr (q2 u)) as Z2. pose proof (Rle_0_sqr (q3 u)) as Z3. unfold Rsqr in *.
  assert (B : forall x, x * x <= 15 / 32 -> Rabs x <= 685 / 1000) by (intros x X; apply Rabs_le; nra).
  pose proof (B (q1 u) ltac:(lra)) as U1. pose proof (B (q2 u) ltac:(lra)) as U2. pose proof (B (q3 u) ltac:(lra)) as U3. clear B.
  assert (W : forall a b, Rabs (a - b) <= t -> Rabs b <= 685 / 1000 -> Rabs (a * a - b * b) <= 14 / 10 * t /\ Rabs a <= 7 / 10).
  { intros a b H K. split.
    - replace (a * a - b * b) with ((a - b) * (a - b + 2 * b)) by ring. rewrite Rabs_mult, (Rmult_comm (14 / 10)). apply Rmult_le_compat; try apply Rabs_pos; [exact H|].
      eapply Rle_trans; [apply Rabs_triang|]. rewrite Rabs_mult, (Rabs_right 2); lra.
    - apply Rabs_le_inv in H. apply Rabs_le_inv in K. apply Rabs_le. lra. }
  destruct (W _ _ D1 U1) as [E1 A1]. destruct (W _ _ D2 U2) as [E2 A2]. destruct (W _ _ D3 U3) as [E3 A3].
  apply Rabs_le_inv in E1. apply Rabs_le_inv in E2. apply Rabs_le_inv in E3.
  split; [apply Rabs_le; lra|]. split; [lra | auto].
Qed.
Lemma root_low p b : 0 < p -> b = 1 - p * p -> b <= 4704 / 10000 -> 7277 / 10000 <= p.
Proof. intros P E B. nra. Qed.
Lemma root_diff p p' m : 7277 / 10000 <= p -> 7277 / 10000 <= p' -> Rabs (p * p - p' * p') <= m -> Rabs (p - p') <= m / (14554 / 10000).
Proof.
  intros P P' H. replace (p * p - p' * p') with ((p - p') * (p + p')) in H by ring. rewrite Rabs_mult, (Rabs_right (p + p')) in H by lra.
  apply Rmult_le_reg_r with (14554 / 10000); [lra|]. replace (m / (14554 / 10000) * (14554 / 10000)) with m by field. pose proof (Rabs_pos (p - p')). nra.
Qed.
Lemma small_step u q q' f h p : unit4 u -> vec2 u <= 15 / 32 -> 0 < p -> vec2 q = 1 - p * p -> state f u q -> f <= 1 / 4096 -> 0 <= h <= 1 / 1000000 -> off h q' (turned q p) -> state (f + 71 * h) u q'.
Proof.
  intros U V P0 EP (p1 & t & r & P & E & E0 & D1 & D2 & D3 & F) Hf Hh (O0 & O1 & O2 & O3).
  assert (p1 = p) by nra. subst p1. clear EP P0.
  pose proof (Rabs_pos r) as Pr. assert (T0 : 0 <= t) by (pose proof (Rabs_pos (q1 q - q1 u)); lra).
  assert (Rs : Rabs r <= 1 / 10000) by lra.
  destruct (vec2_off t u q V ltac:(lra) D1 D2 D3) as (_ & VQ & A1 & A2 & A3).
  pose proof (root_low p _ P E ltac:(lra)) as LP.
  unfold turned in *. cbn [q0 q1 q2 q3] in *. rewrite E0 in O1, O2, O3.
  assert (Q : forall v, p * (1 + r) * v / p = v + r * v) by (intros; field; lra). rewrite Q in O1, O2, O3. clear Q.
  (* squares *)
  assert (W : forall w v, Rabs (w - (v + r * v)) <= h -> Rabs v <= 7 / 10 -> Rabs (w * w - v * v - v * v * (2 * r + r * r)) <= 142 / 100 * h).
  { intros w v H K. set (g := w - (v + r * v)) in *. replace (w * w - v * v - v * v * (2 * r + r * r)) with (g * (g + 2 * (1 + r) * v)) by (unfold g; ring).
    rewrite Rabs_mult, (Rmult_comm (142 / 100)). apply Rmult_le_compat; try apply Rabs_pos; [exact H|]. eapply Rle_trans; [apply Rabs_triang|]. rewrite !Rabs_mult, (Rabs_right 2) by lra.
    assert (Rabs (1 + r) <= 10001 / 10000) by (eapply Rle_trans; [apply Rabs_triang|]; rewrite Rabs_R1; lra). pose proof (Rabs_pos (1 + r)). pose proof (Rabs_pos v).
    assert (Rabs (1 + r) * Rabs v <= 10001 / 10000 * (7 / 10)) by (apply Rmult_le_compat; assumption). lra. }
  pose proof (W _ _ O1 A1) as W1. pose proof (W _ _ O2 A2) as W2. pose proof (W _ _ O3 A3) as W3'. clear W.
  assert (RR : Rabs (2 * r + r * r) <= 20001 / 10000 * Rabs r).
  { replace (2 * r + r * r) with (r * (2 + r)) by ring. rewrite Rabs_mult, (Rmult_comm (20001 / 10000)). apply Rmult_le_compat_l; [exact Pr|]. eapply Rle_trans; [apply Rabs_triang|]. rewrite Rabs_right; lra. }
  assert (V0 : 0 <= vec2 q) by (unfold vec2; pose proof (Rle_0_sqr (q1 q)); pose proof (Rle_0_sqr (q2 q)); pose proof (Rle_0_sqr (q3 q)); unfold Rsqr in *; lra).
  assert (DD : Rabs (vec2 q' - vec2 q) <= 941 / 1000 * Rabs r + 43 / 10 * h).
  { replace (vec2 q' - vec2 q) with (vec2 q * (2 * r + r * r) + ((q1 q' * q1 q' - q1 q * q1 q - q1 q * q1 q * (2 * r + r * r)) + (q2 q' * q2 q' - q2 q * q2 q - q2 q * q2 q * (2 * r + r * r)) + (q3 q' * q3 q' - q3 q * q3 q - q3 q * q3 q * (2 * r + r * r)))) by (unfold vec2; ring).
    apply Rabs_le_inv in W1. apply Rabs_le_inv in W2. apply Rabs_le_inv in W3'.
    assert (M : Rabs (vec2 q * (2 * r + r * r)) <= 941 / 1000 * Rabs r).
    { rewrite Rabs_mult, (Rabs_right (vec2 q)) by lra. apply Rle_trans with (4703 / 10000 * (20001 / 10000 * Rabs r)); [apply Rmult_le_compat; try apply Rabs_pos; assumption | lra]. }
    eapply Rle_trans; [apply Rabs_triang|]. apply Rplus_le_compat; [exact M|]. apply Rabs_le. lra. }
  assert (VQ' : vec2 q' <= 4704 / 10000). { replace (vec2 q') with (vec2 q + (vec2 q' - vec2 q)) by ring. pose proof (Rabs_le_inv _ _ DD). lra. }
  set (p' := sqrt (1 - vec2 q')). assert (PP : p' * p' = 1 - vec2 q') by (apply sqrt_sqrt; lra). assert (P' : 0 < p') by (apply sqrt_lt_R0; lra).
  pose proof (root_low p' (vec2 q') P' ltac:(lra) VQ') as LP'.
  assert (PD : Rabs (p - p') <= (941 / 1000 * Rabs r + 43 / 10 * h) / (14554 / 10000)). { apply root_diff; [exact LP | exact LP'|]. replace (p * p - p' * p') with (vec2 q' - vec2 q) by lra. exact DD. }
  set (r' := q0 q' / p' - 1). exists p', (t + Rabs r + h), r'. split; [exact P'|]. split; [lra|]. split; [unfold r'; field; lra|].
  assert (R' : Rabs r' <= 9 / 10 * Rabs r + 7 * h).
  { replace r' with ((q0 q' - p + (p - p')) / p') by (unfold r'; field; lra). unfold Rdiv. rewrite Rabs_mult, Rabs_inv, (Rabs_right p') by lra.
    apply Rmult_le_reg_r with p'; [exact P'|]. rewrite Rmult_assoc, Rinv_l, Rmult_1_r by lra. eapply Rle_trans; [apply Rabs_triang|].
    apply Rle_trans with ((9 / 10 * Rabs r + 7 * h) * (7277 / 10000)); [lra | apply Rmult_le_compat_l; lra]. }
  assert (TR : forall w v u0, Rabs (w - (v + r * v)) <= h -> Rabs v <= 7 / 10 -> Rabs (v - u0) <= t -> Rabs (w - u0) <= t + Rabs r + h).
  { intros w v u0 H K X. replace (w - u0) with ((w - (v + r * v)) + ((v - u0) + r * v)) by ring. eapply Rle_trans; [apply Rabs_triang|].
    assert (Rabs ((v - u0) + r * v) <= t + Rabs r); [|lra]. eapply Rle_trans; [apply Rabs_triang|]. rewrite (Rabs_mult r v). pose proof (Rabs_pos v). nra. }
  split; [eapply TR; eassumption|]. split; [eapply TR; eassumption|]. split; [eapply TR; eassumption|]. lra.
Qed.
Lemma state_start u q d : unit4 u -> 0 < q0 u -> vec2 u <= 15 / 32 -> 0 <= d <= 1 / 4096 -> off d q u -> state (55 * d) u q.
Proof.
  intros U U0 V D (O0 & O1 & O2 & O3). destruct (vec2_off d u q V D O1 O2 O3) as (E & VQ & _).
  assert (UU : q0 u * q0 u = 1 - vec2 u) by (unfold unit4, qdot in U; unfold vec2; lra).
  pose proof (root_low (q0 u) (vec2 u) U0 ltac:(lra) ltac:(lra)) as LU.
  set (p := sqrt (1 - vec2 q)). assert (PP : p * p = 1 - vec2 q) by (apply sqrt_sqrt; lra). assert (P : 0 < p) by (apply sqrt_lt_R0; lra).
  pose proof (root_low p (vec2 q) P ltac:(lra) ltac:(lra)) as LP.
  assert (PD : Rabs (q0 u - p) <= (42 / 10 * d) / (14554 / 10000)). { apply root_diff; [exact LU | exact LP|]. replace (q0 u * q0 u - p * p) with (vec2 q - vec2 u) by lra. exact E. }
  exists p, d, (q0 q / p - 1). split; [exact P|]. split; [lra|]. split; [field; lra|]. split; [exact O1|]. split; [exact O2|]. split; [exact O3|].
  assert (Rabs (q0 q / p - 1) <= 54 / 10 * d); [|lra].
  replace (q0 q / p - 1) with ((q0 q - q0 u + (q0 u - p)) / p) by (field; lra). unfold Rdiv at 1. rewrite Rabs_mult, Rabs_inv, (Rabs_right p) by lra.
  apply Rmult_le_reg_r with p; [exact P|]. rewrite Rmult_assoc, Rinv_l, Rmult_1_r by lra. eapply Rle_trans; [apply Rabs_triang|].
  apply Rle_trans with (54 / 10 * d * (7277 / 10000)); [lra | apply Rmult_le_compat_l; lra].
Qed.
Lemma state_end u q f : unit4 u -> 0 < q0 u -> vec2 u <= 15 / 32 -> f <= 1 / 4096 -> state f u q -> off (3 * f) q u.
Proof.
  intros U U0 V Hf (p & t & r & P & E & E0 & D1 & D2 & D3 & F). pose proof (Rabs_pos r) as Pr. assert (T0 : 0 <= t) by (pose proof (Rabs_pos (q1 q - q1 u)); lra).
  destruct (vec2_off t u q V ltac:(lra) D1 D2 D3) as (EV & VQ & _).
  assert (UU : q0 u * q0 u = 1 - vec2 u) by (unfold unit4, qdot in U; unfold vec2; lra).
  pose proof (root_low (q0 u) (vec2 u) U0 ltac:(lra) ltac:(lra)) as LU. pose proof (root_low p (vec2 q) P ltac:(lra) ltac:(lra)) as LP.
  assert (PD : Rabs (q0 u - p) <= (42 / 10 * t) / (14554 / 10000)). { apply root_diff; [exact LU | exact LP|]. replace (q0 u * q0 u - p * p) with (vec2 q - vec2 u) by lra. exact EV. }
  assert (P1 : p <= 1). { assert (0 <= vec2 q) by (unfold vec2; pose proof (Rle_0_sqr (q1 q)); pose proof (Rle_0_sqr (q2 q)); pose proof (Rle_0_sqr (q3 q)); unfold Rsqr in *; lra). nra. }
  assert (PR : Rabs (p * r) <= Rabs r) by (rewrite Rabs_mult, (Rabs_right p) by lra; nra).
  split; [|repeat split; lra]. rewrite E0. replace (p * (1 + r) - q0 u) with (p * r + - (q0 u - p)) by ring. eapply Rle_trans; [apply Rabs_triang|]. rewrite Rabs_Ropp. lra.
Qed.
Lemma state_neg f u q : state f u (qneg q) -> forall p, 0 < p -> turned (qneg q) p = turned q p.
Proof. intros _ p P. unfold turned, qneg. cbn [q0 q1 q2 q3]. f_equal; field; lra. Qed.
Definition state2 (f : R) (u : quat) (x : v4 b64) : Prop := stored_quat 0 x (vq x) /\ (state f u (vq x) \/ state f u (qneg (vq x))).
Lemma small_trip L bdot x u f : In bdot b_dots -> unit4 u -> vec2 u <= 15 / 32 -> f <= 1 / 4096 -> state2 f u x ->
  exists x', g_R2q (b64_arith L bdot) (g_q2R (b64_arith L bdot) x) = Ok x' /\ state2 (f + 71 * (210 * uu)) u x'.
Proof.
  intros HD U V Hf (S0 & ST). pose proof uu_pos as UP. assert (US : uu <= 1 / 1000000000000) by (rewrite uu_val'; lra). set (q := vq x) in *.
  assert (G : exists p t r, 0 < p /\ vec2 q = 1 - p * p /\ q0 q * q0 q = p * p * ((1 + r) * (1 + r)) /\ Rabs r <= 1 / 40960 /\ vec2 q <= 4703 / 10000 /\ 0 <= t /\ Rabs (q1 q) <= 7 / 10 /\ Rabs (q2 q) <= 7 / 10 /\ Rabs (q3 q) <= 7 / 10).
  { destruct ST as [(p & t & r & P & E & E0 & D1 & D2 & D3 & F)|(p & t & r & P & E & E0 & D1 & D2 & D3 & F)]; pose proof (Rabs_pos r) as Pr; pose proof (Rle_trans _ _ _ (Rabs_pos _) D1) as T0.
    - destruct (vec2_off t u q V ltac:(lra) D1 D2 D3) as (_ & VQ & A1 & A2 & A3). exists p, t, r. split; [exact P|]. split; [exact E|]. split; [rewrite E0; ring|]. split; [lra|]. auto.
    - destruct (vec2_off t u _ V ltac:(lra) D1 D2 D3) as (_ & VQ & A1 & A2 & A3). rewrite vec2_neg in *. exists p, t, r. split; [exact P|]. split; [exact E|].
      unfold qneg in E0, A1, A2, A3. cbn [q0 q1 q2 q3] in *. rewrite Rabs_Ropp in A1, A2, A3.
      split; [replace (q0 q * q0 q) with (- q0 q * - q0 q) by ring; rewrite E0; ring|]. split; [lra|]. auto. }
  destruct G as (p & t & r & P & EP & E0 & Rr & VQ & _ & A1 & A2 & A3).
  assert (R2 : Rabs ((1 + r) * (1 + r) - 1) <= 1 / 1000).
  { replace ((1 + r) * (1 + r) - 1) with (r * (2 + r)) by ring. rewrite Rabs_mult. apply Rabs_le_inv in Rr. assert (Rabs r <= 1 / 40960) by (apply Rabs_le; exact Rr). assert (Rabs (2 + r) <= 3) by (apply Rabs_le; lra). pose proof (Rabs_pos r). pose proof (Rabs_pos (2 + r)). nra. }
  apply Rabs_le_inv in R2. assert (PP : 0 < p * p <= 1).
  { split; [nra|]. unfold vec2 in EP. pose proof (Rle_0_sqr (q1 q)) as Z1. pose proof (Rle_0_sqr (q2 q)) as Z2. pose proof (Rle_0_sqr (q3 q)) as Z3. unfold Rsqr in *. lra. }
  assert (QQ : Rabs (q0 q * q0 q - p * p) <= 1 / 1000). { rewrite E0. apply Rabs_le. nra. }
  apply Rabs_le_inv in QQ.
  assert (Hn : 63 / 64 <= qdot q q <= 65 / 64) by (unfold qdot; unfold vec2 in EP; lra).
  assert (A0 : Rabs (q0 q) <= 33 / 32) by (apply Rabs_le; nra).
  pose proof (q2R_local L bdot x q HD S0 A0 ltac:(lra) ltac:(lra) ltac:(lra)) as SM.
  destruct (R2q_first L bdot _ q (64 * uu) ltac:(lra) Hn SM p P EP ltac:(lra)) as (x' & E & N).
  exists x'. split; [exact E|]. change (stored_quat (3 * (64 * uu) + 18 * uu) x' (turned q p)) in N.
  replace (3 * (64 * uu) + 18 * uu) with (210 * uu) in N by ring. destruct (vq_off _ _ _ N) as [S' O']. split; [exact S'|]. left.
  assert (HH : 0 <= 210 * uu <= 1 / 1000000) by (rewrite uu_val'; lra).
  destruct ST as [ST|ST].
  - eapply (small_step u q); eassumption.
  - rewrite <- (state_neg _ _ _ ST p P) in O'. eapply (small_step u (qneg q)); try eassumption. rewrite vec2_neg. exact EP.
Qed.
Lemma small_trips L bdot u p : In bdot b_dots -> unit4 u -> vec2 u <= 15 / 32 -> forall n x f, f + INR n * (71 * (210 * uu)) <= 1 / 4096 -> state2 f u x ->
  exists x', trips (b64_arith L bdot) n (@GT (b64_arith L bdot) (g_q2R (b64_arith L bdot) x) p) = Ok (GT (g_q2R (b64_arith L bdot) x') p) /\ state2 (f + INR n * (71 * (210 * uu))) u x'.
Proof.
  intros HD U V. pose proof uu_pos as UP. induction n as [|n IH]; intros x f B S.
  { exists x. split; [reflexivity|]. cbn [INR]. rewrite Rmult_0_l, Rplus_0_r. exact S. }
  rewrite S_INR in *. assert (P : 0 <= INR n * (71 * (210 * uu))) by (apply Rmult_le_pos; [apply pos_INR | lra]).
  destruct (small_trip L bdot x u f HD U V ltac:(lra) S) as (x1 & E1 & S1).
  destruct (IH x1 (f + 71 * (210 * uu)) ltac:(lra) S1) as (x' & E & S'). exists x'.
  split; [rewrite trips_S, E1; exact E|]. replace (f + (INR n + 1) * (71 * (210 * uu))) with (f + 71 * (210 * uu) + INR n * (71 * (210 * uu))) by ring. exact S'.
Qed.

(** C100.  A pose whose rotation is by at most 86 degrees (trace at least 9/8), stored within e in
    each entry, keeps its rotation up to 4096 e + (n + 1) 2^-34 in n conversions to a message and
    back; the position never changes. *)
Theorem C100_small_partial : forall L bdot (T : gtf (b64_arith L bdot)) Q e n, In bdot b_dots -> is_SO3 Q -> 9 / 8 <= trace Q -> 0 <= e <= bpow radix2 (-26) -> INR n <= bpow radix2 24 ->
  stored_matrix e (gR T) Q ->
  exists T', trips (b64_arith L bdot) n T = Ok T' /\ gp T' = gp T /\ stored_matrix (4096 * e + (INR n + 1) * bpow radix2 (-34)) (gR T') Q.
Proof.
  intros L bdot T Q e n HD HQ HT He Hn HM. pose proof uu_pos as UP. pose proof uu_val' as UV.
  assert (B26 : bpow radix2 (-26) = 134217728 * uu) by (rewrite UV; cbn; lra). assert (B24 : bpow radix2 24 = 16777216) by (cbn; lra). assert (B34 : bpow radix2 (-34) = 524288 * uu) by (rewrite UV; cbn; lra).
  rewrite B26 in He. rewrite B24 in Hn. rewrite B34. destruct T as [M p]. cbn [gR gp] in *.
  destruct n as [|n].
  { exists (GT M p). split; [reflexivity|]. split; [reflexivity|]. eapply stored_weak; [|exact HM]. cbn [INR]. lra. }
  rewrite S_INR in *. pose proof (pos_INR n) as PN.
  assert (E64 : 0 <= e <= 1 / 64) by (split; [lra|]; rewrite UV in He; lra).
  destruct (C97_accuracy L bdot M Q e HQ E64 HM) as (x & q & E & U & EQ & S). change (bpow radix2 (-53)) with uu in S.
  assert (VV : vec2 q <= 15 / 32) by (rewrite <- EQ, trace_vec2 in HT; lra).
  assert (GU : exists u, unit4 u /\ 0 < q0 u /\ vec2 u <= 15 / 32 /\ q2R u = Q /\ (stored_quat (3 * e + 18 * uu) x u \/ stored_quat (3 * e + 18 * uu) x (qneg u))).
  { assert (N0 : q0 q <> 0). { intros Z. unfold unit4, qdot in U. rewrite Z in U. unfold vec2 in VV. lra. }
    destruct (Rlt_le_dec 0 (q0 q)) as [P|P]; [exists q; auto 10|]. exists (qneg q). split; [apply unit4_neg, U|]. split; [unfold qneg; cbn [q0]; lra|]. rewrite vec2_neg. split; [exact VV|]. rewrite q2R_neg. split; [exact EQ|]. right. rewrite qneg_neg. exact S. }
  clear q U EQ S VV. destruct GU as (u & U & U0 & VV & EQ & SU).
  assert (D : 0 <= 3 * e + 18 * uu <= 1 / 4096) by (split; [lra|]; rewrite UV in *; lra).
  assert (ST : state2 (55 * (3 * e + 18 * uu)) u x).
  { destruct SU as [S|S]; destruct (vq_off _ _ _ S) as [S0 O]; (split; [exact S0|]).
    - left. apply state_start; assumption.
    - right. apply state_start; try assumption. rewrite <- (qneg_neg u). apply off_neg, O. }
  assert (TOT : INR n * (71 * (210 * uu)) <= 16777216 * (71 * (210 * uu))) by (apply Rmult_le_compat_r; lra).
  assert (BND : 55 * (3 * e + 18 * uu) + INR n * (71 * (210 * uu)) <= 1 / 4096) by (rewrite UV in *; lra).
  destruct (small_trips L bdot u p HD U VV n x _ BND ST) as (x' & E' & S0 & S').
  exists (GT (g_q2R (b64_arith L bdot) x') p). split; [rewrite trips_S, E; exact E'|]. split; [reflexivity|]. cbn [gR].
  set (f := 55 * (3 * e + 18 * uu) + INR n * (71 * (210 * uu))) in *.
  assert (F0 : 0 <= f) by (unfold f; assert (0 <= INR n * (71 * (210 * uu))) by (apply Rmult_le_pos; lra); lra).
  assert (G : exists v, unit4 v /\ q2R v = Q /\ stored_quat (3 * f) x' v).
  { destruct S' as [S'|S']; pose proof (state_end u _ f U U0 VV BND S') as O.
    - exists u. split; [exact U|]. split; [exact EQ|]. rewrite <- (Rplus_0_r (3 * f)). eapply off_stored; eassumption.
    - exists (qneg u). split; [apply unit4_neg, U|]. split; [rewrite q2R_neg; exact EQ|]. rewrite <- (Rplus_0_r (3 * f)). eapply off_stored; [exact S0|]. rewrite <- (qneg_neg (vq x')). apply off_neg, O. }
  destruct G as (v & Uv & Ev & Sv). rewrite <- Ev. eapply stored_weak; [|apply (C98_accuracy L bdot x' v (3 * f) HD Uv); [lra | exact Sv]].
  change (bpow radix2 (-53)) with uu. unfold f.
  replace (15 / 2 * (3 * (55 * (3 * e + 18 * uu) + INR n * (71 * (210 * uu)))) + 40 * uu) with (7425 / 2 * e + (335475 * INR n + 22315) * uu) by field.
  replace (4096 * e + (INR n + 1 + 1) * (524288 * uu)) with (4096 * e + (524288 * INR n + 1048576) * uu) by ring.
  apply Rplus_le_compat; [lra|]. apply Rmult_le_compat_r; lra.
Qed.
(** Rotations by at least 122 degrees (trace at most -1/16) keep their value as well. *)
Theorem C100_large_partial : forall L bdot (T : gtf (b64_arith L bdot)) Q e n, In bdot b_dots -> is_SO3 Q -> trace Q <= - 1 / 16 -> 0 <= e <= bpow radix2 (-13) -> INR n <= bpow radix2 34 ->
  stored_matrix e (gR T) Q ->
  exists T', trips (b64_arith L bdot) n T = Ok T' /\ gp T' = gp T /\ stored_matrix (23 * e + (INR n + 1) * bpow radix2 (-42)) (gR T') Q.
Proof.
  intros L bdot T Q e n HD HQ HT He Hn HM. pose proof uu_pos as UP. pose proof uu_val' as UV.
  assert (B13 : bpow radix2 (-13) = 1 / 8192) by (cbn; lra). assert (B34 : bpow radix2 34 = 17179869184) by (cbn; lra). assert (B42 : bpow radix2 (-42) = 2048 * uu) by (rewrite UV; cbn; lra).
  rewrite B13 in He. rewrite B34 in Hn. rewrite B42. destruct T as [M p]. cbn [gR gp] in *.
  destruct n as [|n].
  { exists (GT M p). split; [reflexivity|]. split; [reflexivity|]. eapply stored_weak; [|exact HM]. cbn [INR]. lra. }
  rewrite S_INR in *. pose proof (pos_INR n) as PN.
  destruct (C97_accuracy L bdot M Q e HQ ltac:(lra) HM) as (x & u & E & U & EQ & S). change (bpow radix2 (-53)) with uu in S.
  assert (VV : 49 / 64 <= vec2 u) by (rewrite <- EQ, trace_vec2 in HT; lra).
  assert (TOT : INR n * (210 * uu) <= 17179869184 * (210 * uu)) by (apply Rmult_le_compat_r; lra).
  assert (BND : 3 * e + 18 * uu + INR n * (210 * uu) <= 1 / 1024) by (rewrite UV in *; lra).
  assert (P0 : 0 <= INR n * (210 * uu)) by (apply Rmult_le_pos; lra).
  destruct (large_trips L bdot u p HD U VV n x (3 * e + 18 * uu) ltac:(lra) BND (or_introl S)) as (x' & E' & S').
  exists (GT (g_q2R (b64_arith L bdot) x') p). split; [rewrite trips_S, E; exact E'|]. split; [reflexivity|]. cbn [gR].
  set (f := 3 * e + 18 * uu + INR n * (210 * uu)) in *. assert (F0 : 0 <= f) by (unfold f; lra).
  assert (G : exists v, unit4 v /\ q2R v = Q /\ stored_quat f x' v).
  { destruct S' as [S'|S']; [exists u; auto 10 | exists (qneg u); split; [apply unit4_neg, U|]; split; [rewrite q2R_neg; exact EQ | exact S']]. }
  destruct G as (v & Uv & Ev & Sv). rewrite <- Ev. eapply stored_weak; [|apply (C98_accuracy L bdot x' v f HD Uv); [lra | exact Sv]].
  change (bpow radix2 (-53)) with uu. unfold f.
  replace (15 / 2 * (3 * e + 18 * uu + INR n * (210 * uu)) + 40 * uu) with (45 / 2 * e + (1575 * INR n + 175) * uu) by field.
  replace (23 * e + (INR n + 1 + 1) * (2048 * uu)) with (23 * e + (2048 * INR n + 4096) * uu) by ring.
  apply Rplus_le_compat; [lra|]. apply Rmult_le_compat_r; lra.
Qed.

(** Between 90 and 120 degrees they do not.  Over the reals: R2q after q2R multiplies the error of the
    squared norm by |v|^2 / (1 - |v|^2), v being the vector part, and leaves q0 v as it is. *)
Theorem C100_law : forall q, vec2 q < 3 / 4 -> exists q', R2q (q2R q) = Ok (Fin q') /\
  qdot q' q' - 1 = (qdot q q - 1) * (vec2 q / (1 - vec2 q)) /\
  q0 q' * q1 q' = q0 q * q1 q /\ q0 q' * q2 q' = q0 q * q2 q /\ q0 q' * q3 q' = q0 q * q3 q.
Proof.
  intros q V. set (p := sqrt (1 - vec2 q)). assert (PP : p * p = 1 - vec2 q) by (apply sqrt_sqrt; lra). assert (P : 0 < p) by (apply sqrt_lt_R0; lra).
  exists (turned q p). split; [apply trip_first; [exact P | fold (vec2 q); lra | fold (vec2 q); lra]|].
  unfold turned. cbn [q0 q1 q2 q3]. split; [|repeat split; field; lra].
  unfold qdot. cbn [q0 q1 q2 q3].
  replace (p * p + q0 q * q1 q / p * (q0 q * q1 q / p) + q0 q * q2 q / p * (q0 q * q2 q / p) + q0 q * q3 q / p * (q0 q * q3 q / p) - 1) with (p * p + q0 q * q0 q * vec2 q / (p * p) - 1) by (unfold vec2; field; lra).
  rewrite PP. replace (q0 q * q0 q + q1 q * q1 q + q2 q * q2 q + q3 q * q3 q - 1) with (q0 q * q0 q + vec2 q - 1) by (unfold vec2; ring). field. lra.
Qed.
(** The error grows by the factor b/(1-b) at least in each conversion as long as |v|^2 >= b, that is for
    angles above 90 degrees; no such loss happens at 120 degrees or more. *)
Theorem C100_growth : forall b qs n, 1 / 2 <= b ->
  (forall k, (k < n)%nat -> R2q (q2R (qs k)) = Ok (Fin (qs (S k)))) -> (forall k, (k < n)%nat -> b <= vec2 (qs k) < 3 / 4) ->
  (b / (1 - b)) ^ n * Rabs (qdot (qs O) (qs O) - 1) <= Rabs (qdot (qs n) (qs n) - 1).
Proof.
  intros b qs n B. induction n as [|n IH]; intros H V; [cbn [pow]; lra|].
  specialize (IH (fun k K => H k (Nat.lt_lt_succ_r _ _ K)) (fun k K => V k (Nat.lt_lt_succ_r _ _ K))).
  pose proof (V n (Nat.lt_succ_diag_r n)) as Vn. destruct (C100_law (qs n) (proj2 Vn)) as (q' & E & D & _). rewrite (H n (Nat.lt_succ_diag_r n)) in E. injection E as ->.
  rewrite D, Rabs_mult. cbn [pow].
  assert (Q : b / (1 - b) <= Rabs (vec2 (qs n) / (1 - vec2 (qs n)))).
  { rewrite Rabs_right.
    - apply Rmult_le_reg_r with ((1 - b) * (1 - vec2 (qs n))); [nra|]. replace (b / (1 - b) * ((1 - b) * (1 - vec2 (qs n)))) with (b * (1 - vec2 (qs n))) by (field; lra).
      replace (vec2 (qs n) / (1 - vec2 (qs n)) * ((1 - b) * (1 - vec2 (qs n)))) with (vec2 (qs n) * (1 - b)) by (field; lra). lra.
    - apply Rle_ge, Rmult_le_pos; [lra | left; apply Rinv_0_lt_compat; lra]. }
  assert (B0 : 0 <= b / (1 - b)) by (apply Rmult_le_pos; [lra | left; apply Rinv_0_lt_compat; lra]).
  rewrite (Rmult_comm (Rabs (qdot _ _ - 1))), Rmult_assoc. apply Rmult_le_compat; [exact B0 | | exact Q | exact IH].
  apply Rmult_le_pos; [apply pow_le, B0 | apply Rabs_pos].
Qed.
Theorem C100_fixed : forall q, 3 / 4 <= vec2 q -> R2q (q2R q) = Ok (Fin q) \/ R2q (q2R q) = Ok (Fin (qneg q)).
Proof. exact trip_other. Qed.

(** In binary64: the rotation by 118 degrees with cosine -8/17 and sine 15/17, stored to the last
    bit, becomes that with cosine 8/17 in 45 conversions, for every summation order. *)
Definition spun : m3 b64 :=
  W3 (W3 (b_lit (-8) 17) (b_lit (-15) 17) (b_lit 0 1)) (W3 (b_lit 15 17) (b_lit (-8) 17) (b_lit 0 1)) (W3 (b_lit 0 1) (b_lit 0 1) (b_lit 1 1)).
Definition spun_R : mat3 := M3 (- 8 / 17) (- 15 / 17) 0 (15 / 17) (- 8 / 17) 0 0 0 1.
Lemma spun_ok : is_SO3 spun_R /\ stored_matrix (bpow radix2 (-53)) spun spun_R.
Proof.
  split; [split; [unfold spun_R; la_unfold; f_equal; field | unfold spun_R; la_unfold; field]|].
  unfold stored_matrix, spun, spun_R. cbn [w0 w1 w2 m00 m01 m02 m10 m11 m12 m20 m21 m22]. split; [|split]; (split; [|split]); lit.
Qed.
Definition cos_after (n : nat) (bdot : list b64 -> list b64 -> b64) : bool :=
  match trips (b64_arith exact_libm bdot) n (@GT (b64_arith exact_libm bdot) spun (W3 (b_lit 0 1) (b_lit 0 1) (b_lit 0 1))) with
  | Ok T => b_lt (b_lit 47 100) (w0 (w0 (gR T))) && is_finite (w0 (w0 (gR T)))
  | Err _ => false
  end.
Lemma spun_after : map (cos_after 45) b_dots = repeat true 6.
Proof. vm_compute. reflexivity. Qed.
Lemma cos_after_val n bdot : cos_after n bdot = true -> exists T', trips (b64_arith exact_libm bdot) n (@GT (b64_arith exact_libm bdot) spun (W3 (b_lit 0 1) (b_lit 0 1) (b_lit 0 1))) = Ok T' /\ bval (w0 (w0 (gR T'))) - m00 spun_R > 94 / 100.
Proof.
  unfold cos_after. destruct (trips _ n _) as [T|]; [|discriminate]. intros C. exists T. split; [reflexivity|].
  apply andb_prop in C as [C F]. apply b_lt_val in C; [|reflexivity | exact F].
  assert (bval (b_lit 47 100) >= 46999 / 100000) by (vm_compute; lra). unfold spun_R. cbn [m00]. lra.
Qed.
Lemma all_true (f : (list b64 -> list b64 -> b64) -> bool) l k : map f l = repeat true k -> forall x, In x l -> f x = true.
Proof. intros E x I1. apply (in_map f) in I1. rewrite E in I1. exact (repeat_spec _ _ _ I1). Qed.
Theorem C100_drift_refuted : exists (M : m3 b64) Q, is_SO3 Q /\ stored_matrix (bpow radix2 (-53)) M Q /\
  forall bdot, In bdot b_dots -> exists T', trips (b64_arith exact_libm bdot) 45 (@GT (b64_arith exact_libm bdot) M (W3 (b_lit 0 1) (b_lit 0 1) (b_lit 0 1))) = Ok T' /\ bval (w0 (w0 (gR T'))) - m00 Q > 94 / 100.
Proof.
  exists spun, spun_R. destruct spun_ok as [A B]. split; [exact A|]. split; [exact B|]. intros bdot HD.
  exact (cos_after_val 45 bdot (all_true (cos_after 45) b_dots 6 spun_after bdot HD)).
Qed.

(** One conversion to a message and back is accurate for every rotation. *)
Theorem C98_message : forall L bdot (T : gtf (b64_arith L bdot)) Q e, In bdot b_dots -> is_SO3 Q -> 0 <= e <= 1 / 64 -> stored_matrix e (gR T) Q ->
  exists m, g_transform2msg (b64_arith L bdot) T = Ok m /\ pos m = gp T /\ gp (g_msg2transform (b64_arith L bdot) m) = gp T /\
    stored_matrix (23 * e + bpow radix2 (-45)) (gR (g_msg2transform (b64_arith L bdot) m)) Q.
Proof.
  intros L bdot T Q e HD HQ He HM. destruct (C98_roundtrip L bdot (gR T) Q e HD HQ He HM) as (x & E & S).
  exists (GPose (gp T) (g_q2msg _ x)). unfold g_transform2msg, g_R2msg. rewrite E. destruct x as [x0 x1 x2 x3]. repeat split; apply S.
Qed.

(* ---- examples ---- *)
(** a million conversions of a rotation by 53 degrees, a thousand million of a half turn *)
Example C100_ex : forall L bdot p, In bdot b_dots ->
  (exists T', trips (b64_arith L bdot) (Z.to_nat 1000000) (@GT (b64_arith L bdot) tilt p) = Ok T' /\ gp T' = p /\ stored_matrix (1 / 10000) (gR T') tilt_R) /\
  (exists T', trips (b64_arith L bdot) (Z.to_nat 1000000000) (@GT (b64_arith L bdot) flip p) = Ok T' /\ gp T' = p /\ stored_matrix (1 / 1000) (gR T') flip_R).
Proof.
  intros L bdot p HD. assert (B53 : bpow radix2 (-53) = 1 / 9007199254740992) by (cbn; lra). split.
  - destruct tilt_ok as [A B].
    assert (N : INR (Z.to_nat 1000000) = 1000000) by (rewrite INR_IZR_INZ, Znat.Z2Nat.id; [reflexivity | lia]).
    destruct (C100_small_partial L bdot (@GT (b64_arith L bdot) tilt p) tilt_R (bpow radix2 (-53)) (Z.to_nat 1000000) HD A) as (T' & E & P & S).
    + unfold tilt_R, trace. cbn [m00 m11 m22]. lra.
    + split; [apply bpow_ge_0 | apply bpow_le; lia].
    + rewrite N. cbn. lra.
    + exact B.
    + exists T'. split; [exact E|]. split; [exact P|]. eapply stored_weak; [|exact S]. rewrite N, B53. cbn. lra.
  - destruct flip_ok as [A B].
    assert (N : INR (Z.to_nat 1000000000) = 1000000000) by (rewrite INR_IZR_INZ, Znat.Z2Nat.id; [reflexivity | lia]).
    destruct (C100_large_partial L bdot (@GT (b64_arith L bdot) flip p) flip_R (bpow radix2 (-53)) (Z.to_nat 1000000000) HD A) as (T' & E & P & S).
    + unfold flip_R, trace. cbn [m00 m11 m22]. lra.
    + split; [apply bpow_ge_0 | apply bpow_le; lia].
    + rewrite N. cbn. lra.
    + exact B.
    + exists T'. split; [exact E|]. split; [exact P|]. eapply stored_weak; [|exact S]. rewrite N, B53. cbn. lra.
Qed.
(** (1/2, 4/5, 0, 0) has squared norm 89/100 *)
Example C100_growth_ex : exists qs, R2q (q2R (qs O)) = Ok (Fin (qs 1%nat)) /\ 1 / 2 <= vec2 (qs O) < 3 / 4 /\ Rabs (qdot (qs O) (qs O) - 1) = 11 / 100 /\
  16 / 9 * (11 / 100) <= Rabs (qdot (qs 1%nat) (qs 1%nat) - 1).
Proof.
  set (q := Q4 (1 / 2) (4 / 5) 0 0). exists (fun k => match k with O => q | S _ => turned q (3 / 5) end).
  assert (V : vec2 q = 16 / 25) by (unfold vec2, q; cbn [q1 q2 q3]; field).
  assert (E : R2q (q2R q) = Ok (Fin (turned q (3 / 5)))) by (apply trip_first; [lra | fold (vec2 q); rewrite V; field | fold (vec2 q); rewrite V; lra]).
  assert (A : Rabs (qdot q q - 1) = 11 / 100) by (unfold qdot, q; cbn [q0 q1 q2 q3]; rewrite Rabs_left; lra).
  split; [exact E|]. split; [rewrite V; lra|]. split; [exact A|].
  pose proof (C100_growth (16 / 25) (fun k => match k with O => q | S _ => turned q (3 / 5) end) 1 ltac:(lra)) as G. cbn [pow] in G. rewrite A in G.
  replace (16 / 25 / (1 - 16 / 25) * 1 * (11 / 100)) with (16 / 9 * (11 / 100)) in G by field.
  apply G; intros [|k] K; try lia; [exact E | rewrite V; lra].
Qed.
Print Assumptions C98_message.
Print Assumptions C100_small_partial.
Print Assumptions C100_large_partial.
Print Assumptions C100_law.
Print Assumptions C100_growth.
Print Assumptions C100_fixed.
Print Assumptions C100_drift_refuted.
