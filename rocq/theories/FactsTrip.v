(** R2q after q2R for quaternions that need not be normalised. *)
From Coq Require Import Reals List Bool Lra Psatz.
From Verif Require Import LinAlg RealAux Py FactsReal FactsLinAlg ModelRot SpecRot FactsRot.
Open Scope R_scope.

Lemma trip_entries q : let A := q2R q in
  m00 A + m11 A + m22 A = 3 - 4 * (q1 q * q1 q + q2 q * q2 q + q3 q * q3 q) /\ 4 * (q1 q * q1 q) = 1 + m00 A + - m11 A + - m22 A /\
  4 * (q2 q * q2 q) = 1 + - m00 A + m11 A + - m22 A /\ 4 * (q3 q * q3 q) = 1 + - m00 A + - m11 A + m22 A /\
  (4 * (q0 q * q1 q) = m21 A + - m12 A /\ 4 * (q0 q * q2 q) = m02 A + - m20 A /\ 4 * (q0 q * q3 q) = m10 A + - m01 A /\
  4 * (q1 q * q2 q) = m01 A + m10 A /\ 4 * (q1 q * q3 q) = m02 A + m20 A /\ 4 * (q2 q * q3 q) = m12 A + m21 A).
Proof. destruct q as [a b c d]. intros A. subst A. rot_unfold. repeat split; ring. Qed.

Lemma root4 p : 0 < p -> math_sqrt (4 * (p * p)) = Ok (2 * p).
Proof.
  intros P. unfold math_sqrt. rewrite (proj2 (Rltb_false _ _)) by nra. f_equal. replace (4 * (p * p)) with ((2 * p) * (2 * p)) by ring. apply sqrt_square. lra.
Qed.
Lemma big p : 0 < p -> Reqb (2 * (2 * p)) 0 = false.
Proof. intros P. apply Reqb_false. lra. Qed.
(** the first branch puts sqrt (1 - |v|^2) in the place of q0 and stretches the vector part *)
Lemma trip_first q p : 0 < p -> q1 q * q1 q + q2 q * q2 q + q3 q * q3 q = 1 - p * p -> q1 q * q1 q + q2 q * q2 q + q3 q * q3 q < 3 / 4 ->
  R2q (q2R q) = Ok (Fin (Q4 p (q0 q * q1 q / p) (q0 q * q2 q / p) (q0 q * q3 q / p))).
Proof.
  intros P E T. destruct (trip_entries q) as (T0 & _ & _ & _ & E1 & E2 & E3 & _). cbv zeta in *. unfold R2q, trace.
  rewrite (proj2 (Rltb_true _ _)) by lra. replace (m00 (q2R q) + m11 (q2R q) + m22 (q2R q) + 1) with (4 * (p * p)) by lra.
  rewrite root4 by exact P. cbn [bind]. rewrite big by exact P. unfold Rminus. rewrite <- E1, <- E2, <- E3. do 3 f_equal; field; lra.
Qed.
(** the other branches return the quaternion, normalised or not, or its negative *)
Lemma trip_other q : 3 / 4 <= q1 q * q1 q + q2 q * q2 q + q3 q * q3 q -> R2q (q2R q) = Ok (Fin q) \/ R2q (q2R q) = Ok (Fin (qneg q)).
Proof.
  intros T. destruct (trip_entries q) as (T0 & D1 & D2 & D3 & E01 & E02 & E03 & E12 & E13 & E23). cbv zeta in *. unfold R2q, trace.
  rewrite (proj2 (Rltb_false _ _)) by lra.
  assert (SG : forall x, x <> 0 -> (0 < x /\ Rabs x = x) \/ (0 < - x /\ Rabs x = - x)) by (intros x X; unfold Rabs; destruct (Rcase_abs x); [right | left]; lra).
  assert (SQ : forall x, Rabs x * Rabs x = x * x) by (intros; rewrite <- Rabs_mult; apply Rabs_right; nra).
  unfold Rminus. destruct q as [a b c d]. cbn [q0 q1 q2 q3] in *.
  destruct (Rltb (m11 _) (m00 _) && Rltb (m22 _) (m00 _))%bool eqn:C1; [|destruct (Rltb (m22 _) (m11 _)) eqn:C2].
  - apply andb_prop in C1 as [C1 C2]. apply Rltb_true in C1. apply Rltb_true in C2. assert (N : b <> 0) by (intros ->; nra). rewrite <- D1, <- E01, <- E12, <- E13, <- (SQ b).
    rewrite root4 by (apply Rabs_pos_lt, N). cbn [bind]. rewrite big by (apply Rabs_pos_lt, N).
    destruct (SG b N) as [[P ->]|[P ->]]; [left | right]; unfold qneg; cbn [q0 q1 q2 q3]; do 3 f_equal; field; lra.
  - apply Rltb_true in C2. apply andb_false_iff in C1. assert (N : c <> 0) by (intros ->; destruct C1 as [C1|C1]; apply Rltb_false in C1; nra). rewrite <- D2, <- E02, <- E12, <- E23, <- (SQ c).
    rewrite root4 by (apply Rabs_pos_lt, N). cbn [bind]. rewrite big by (apply Rabs_pos_lt, N).
    destruct (SG c N) as [[P ->]|[P ->]]; [left | right]; unfold qneg; cbn [q0 q1 q2 q3]; do 3 f_equal; field; lra.
  - apply Rltb_false in C2. apply andb_false_iff in C1. assert (N : d <> 0) by (intros ->; destruct C1 as [C1|C1]; apply Rltb_false in C1; nra). rewrite <- D3, <- E03, <- E13, <- E23, <- (SQ d).
    rewrite root4 by (apply Rabs_pos_lt, N). cbn [bind]. rewrite big by (apply Rabs_pos_lt, N).
    destruct (SG d N) as [[P ->]|[P ->]]; [left | right]; unfold qneg; cbn [q0 q1 q2 q3]; do 3 f_equal; field; lra.
Qed.
