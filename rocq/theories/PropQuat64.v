(** Properties C97-C99: quaternions in binary64. *)
From Coq Require Import Reals ZArith List Bool Lra Lia Psatz.
From Flocq Require Import Core.Core IEEE754.BinarySingleNaN.
From Verif Require Import LinAlg RealAux Py FactsReal FactsLinAlg ModelRot SpecRot FactsRot FactsRot2 FactsNorm ModelFloat ModelFloat4 SpecRound FactsRound FactsFloat FactsB64 FactsExact PropNorm FactsTrack SpecArc SpecArc2 SpecQuat64 FactsAngle FactsSumsq FactsNear PropElbow PropSlerp PropAngle PropR2rot PropRot.
Import ListNotations.
Open Scope R_scope.
Local Notation near := SpecArc2.near.
Local Notation near_weak := FactsNear.near_weak.
Local Notation near_add := FactsNear.near_add.
Local Notation near_mul := FactsNear.near_mul.

(* ---- over the reals this is the model ---- *)
Definition emb_q (q : quat) : v4 R := W4 (q0 q) (q1 q) (q2 q) (q3 q).
Lemma real_math_sqrt x : g_math_sqrt real_arith x = math_sqrt x.
Proof. unfold g_math_sqrt, math_sqrt. rewrite real_lit0. reflexivity. Qed.
Lemma real_two : nlit real_arith 2 1 = 2. Proof. cbn. lra. Qed.
Lemma real_R2q M q : R2q M = Ok (Fin q) -> g_R2q real_arith (emb_m M) = Ok (emb_q q).
Proof.
  destruct M as [a b c d e f g h i]. unfold R2q, g_R2q, trace. rewrite real_lit0, real_lit1, real_two. unfold emb_m, emb_v. cbn [w0 w1 w2 vx vy vz row0 row1 row2 m00 m01 m02 m10 m11 m12 m20 m21 m22].
  change (nlit real_arith 1 4) with (1 / 4). cbn [nlt nadd nsub nmul ndiv real_arith num].
  destruct (Rltb 0 (a + e + i)); [|destruct (Rltb e a && Rltb i a)%bool; [|destruct (Rltb i e)]]; rewrite real_math_sqrt;
    (destruct (math_sqrt _) as [r|x]; cbn [bind]; [|discriminate]); (destruct (Reqb _ _); [discriminate|]); intros E; injection E as <-; reflexivity.
Qed.
Lemma real_q2R q : g_q2R real_arith (emb_q q) = emb_m (q2R q).
Proof. unfold g_q2R. rewrite real_two. unfold emb_q. cbn [y0 y1 y2 y3]. change (W3 (q1 q) (q2 q) (q3 q)) with (emb_v (qvec q)). rewrite real_hat, real_mm, real_I3. reflexivity. Qed.
Lemma real_rot2q k t : rot2q (NdArray k) t = Ok (Q4 (y0 (g_rot2q real_arith (emb_v k) t)) (y1 (g_rot2q real_arith (emb_v k) t)) (y2 (g_rot2q real_arith (emb_v k) t)) (y3 (g_rot2q real_arith (emb_v k) t))).
Proof. unfold rot2q, g_rot2q, qmk, emb_v, vscale. rewrite real_two. cbn [y0 y1 y2 y3 w0 w1 w2 vx vy vz ncos nsin nmul ndiv real_arith]. f_equal. f_equal; ring. Qed.
Lemma real_quatcomplement q : g_quatcomplement real_arith (emb_q q) = emb_q (quatcomplement q).
Proof. unfold g_quatcomplement. rewrite real_lit1. reflexivity. Qed.
Lemma real_dot4 a b c d x y z w : ndot real_arith [a; b; c; d] [x; y; z; w] = qdot (Q4 a b c d) (Q4 x y z w).
Proof. cbn [ndot real_arith]. unfold dot_R, qdot. cbn [combine fold_right fst snd q0 q1 q2 q3]. match goal with |- ?a = ?b => change (@eq R a b) end. ring. Qed.
Lemma real_quatproduct q p : g_mv4 real_arith (g_quatproduct real_arith (emb_q q)) (emb_q p) = emb_q (m4vec (quatproduct q) p).
Proof.
  unfold g_quatproduct, quatproduct. change (W3 (y1 (emb_q q)) (y2 (emb_q q)) (y3 (emb_q q))) with (emb_v (qvec q)). rewrite real_I3, real_hat.
  change (v3zip (v3zip (fun i x => nadd real_arith (nmul real_arith (y0 (emb_q q)) i) x)) (emb_m I3) (emb_m (hat (qvec q)))) with (emb_m (madd (mscale (q0 q) I3) (hat (qvec q)))).
  generalize (madd (mscale (q0 q) I3) (hat (qvec q))). intros B. unfold g_mv4, emb_q, emb_m, emb_v. cbn [y0 y1 y2 y3 w0 w1 w2].
  rewrite !real_dot4. reflexivity.
Qed.

(* ---- R2q ---- *)
Lemma two_val : bfin (b_lit 2 1) /\ bval (b_lit 2 1) = 2. Proof. split; [reflexivity | vm_compute; lra]. Qed.
Lemma quarter_val : bfin (b_lit 1 4) /\ bval (b_lit 1 4) = 1 / 4. Proof. split; [reflexivity | vm_compute; lra]. Qed.
Lemma zero_val : bfin (b_lit 0 1) /\ bval (b_lit 0 1) = 0. Proof. split; [reflexivity | vm_compute; lra]. Qed.

Section Core.
Context (e p : R) (x : b64) (He : 0 <= e <= 1 / 64) (Hp : 0 < p <= 33 / 32) (Hq : 92 / 100 <= 4 * (p * p)) (Nx : near (3 * e + 13 * uu) x (4 * (p * p))).
Local Notation s := (b_sqrt x).
Local Notation S := (b_mul (b_lit 2 1) s).
Lemma core_root : b_lt x (b_lit 0 1) = false /\ near (166 / 100 * e + 10 * uu) s (2 * p).
Proof.
  pose proof uu_pos as U. pose proof uu_small as US. destruct Nx as [Fx Ex]. pose proof (Rabs_le_inv _ _ Ex) as EB. destruct zero_val as [F0 V0].
  assert (P2 : 95 / 100 <= 2 * p) by nra.
  assert (X0 : 87 / 100 <= bval x) by lra. assert (X1 : bval x <= 431 / 100) by nra.
  split. { apply not_true_is_false. intros B. apply (b_lt_val _ _ Fx F0) in B. lra. }
  destruct (sqrt_range0 x Fx ltac:(lra)) as [FS VS].
  set (r := sqrt (bval x)) in *. assert (RR : r * r = bval x) by (apply sqrt_sqrt; lra). assert (R0 : 0 <= r) by apply sqrt_pos.
  assert (R1 : 93 / 100 <= r <= 208 / 100) by nra.
  eapply near_weak; [|eapply (near_rnd (160 / 100 * e + 7 * uu)); [exact FS | exact VS | | |]]; [| | apply Rabs_le; split; [|apply R1]; lra | lra]; [lra|].
  assert (H : Rabs (r - 2 * p) * (r + 2 * p) <= 3 * e + 13 * uu).
  { rewrite <- (Rabs_right (r + 2 * p)) by lra. rewrite <- Rabs_mult. replace ((r - 2 * p) * (r + 2 * p)) with (bval x - 4 * (p * p)) by (rewrite <- RR; ring). exact Ex. }
  pose proof (Rabs_pos (r - 2 * p)). nra.
Qed.
Lemma core_S : near (332 / 100 * e + 25 * uu) S (4 * p) /\ 186 / 100 <= bval S.
Proof.
  destruct core_root as [_ N]. destruct two_val as [F2 V2]. pose proof uu_pos as U. pose proof uu_small as US.
  assert (P2 : 959 / 1000 <= 2 * p) by nra.
  assert (M : near (332 / 100 * e + 25 * uu) S (2 * (2 * p))).
  { eapply near_weak; [|apply (near_mul 0 _ (45 / 10) _ _ _ _ (near_exact 0 _ _ (Rle_refl 0) F2 V2) N)]; rewrite ?(Rabs_right 2) by lra; rewrite ?(Rabs_right (2 * p)) by lra; rewrite ?(Rabs_right (2 * (2 * p))) by lra; lra. }
  replace (2 * (2 * p)) with (4 * p) in M by ring. split; [exact M|]. destruct M as [_ E]. apply Rabs_le_inv in E. lra.
Qed.
Lemma core_p : near (84 / 100 * e + 8 * uu) (b_mul (b_lit 1 4) S) p.
Proof.
  destruct core_S as [N _]. destruct quarter_val as [F4 V4]. pose proof uu_pos as U. pose proof uu_small as US.
  assert (M : near (84 / 100 * e + 8 * uu) (b_mul (b_lit 1 4) S) (1 / 4 * (4 * p))).
  { eapply near_weak; [|apply (near_mul 0 _ (11 / 10) _ _ _ _ (near_exact 0 _ _ (Rle_refl 0) F4 V4) N)]; rewrite ?(Rabs_right (1 / 4)) by lra; rewrite ?(Rabs_right (4 * p)) by lra; rewrite ?(Rabs_right (1 / 4 * (4 * p))) by lra; lra. }
  replace (1 / 4 * (4 * p)) with p in M by field. exact M.
Qed.
Lemma core_q y q : near (2 * e + 4 * uu) y (4 * (p * q)) -> Rabs q <= 33 / 32 -> near (3 * e + 18 * uu) (b_div y S) q.
Proof.
  intros [Fy Ey] Bq. destruct core_S as [[FS ES] LS]. pose proof uu_pos as U. pose proof uu_small as US.
  assert (E : Rabs (bval y / bval S - q) <= 293 / 100 * e + 162 / 10 * uu).
  { replace (bval y / bval S - q) with (((bval y - 4 * (p * q)) - q * (bval S - 4 * p)) / bval S) by (field; lra).
    unfold Rdiv at 1. rewrite Rabs_mult, Rabs_inv, (Rabs_right (bval S)) by lra. apply Rmult_le_reg_r with (bval S); [lra|]. rewrite Rmult_assoc, Rinv_l, Rmult_1_r by lra.
    assert (T : Rabs (q * (bval S - 4 * p)) <= 33 / 32 * (332 / 100 * e + 25 * uu)) by (rewrite Rabs_mult; apply Rmult_le_compat; try apply Rabs_pos; assumption).
    apply Rle_trans with ((293 / 100 * e + 162 / 10 * uu) * (186 / 100)); [|apply Rmult_le_compat_l; lra].
    unfold Rminus at 1. eapply Rle_trans; [apply Rabs_triang|]. rewrite Rabs_Ropp. lra. }
  assert (B : Rabs (bval y / bval S) <= 11 / 10) by (apply Rabs_le_inv in E; apply Rabs_le_inv in Bq; apply Rabs_le; lra).
  destruct (div_range y S Fy ltac:(lra)) as [F V]; [apply rg_16; apply Rabs_le_inv in B; lra|].
  eapply near_weak; [|eapply near_rnd; [exact F | exact V | exact E | exact B | lra]]. lra.
Qed.
End Core.

Definition op (o : bool) : b64 -> b64 -> b64 := if o then b_add else b_sub.
Definition sg (o : bool) (x : R) : R := if o then x else - x.
Lemma sg_abs o x : Rabs (sg o x) = Rabs x. Proof. destruct o; cbn; [reflexivity | apply Rabs_Ropp]. Qed.
Lemma near_op o e f a b x y v w : near e x v -> near f y w -> Rabs v <= a -> Rabs w <= b -> a + b + e + f <= 1000 ->
  near (e + f + (a + b + e + f + 1 / 100) * uu) (op o x y) (v + sg o w).
Proof.
  intros X Y V W M. assert (Rabs (v + sg o w) <= a + b) by (eapply Rle_trans; [apply Rabs_triang|]; rewrite sg_abs; lra).
  destruct o; cbn [op sg] in *; [apply near_add | apply near_sub]; try assumption; try lra; unfold Rminus; lra.
Qed.
Lemma chain o1 o2 o3 ea eb ec ed e a b c d a' b' c' d' : near ea a a' -> near eb b b' -> near ec c c' -> near ed d d' ->
  Rabs a' <= 33 / 32 -> Rabs b' <= 33 / 32 -> Rabs c' <= 33 / 32 -> Rabs d' <= 33 / 32 -> 0 <= ea -> 0 <= eb -> 0 <= ec -> 0 <= ed -> ea + eb + ec + ed <= 3 * e -> e <= 1 / 64 ->
  near (3 * e + 13 * uu) (op o3 (op o2 (op o1 a b) c) d) (a' + sg o1 b' + sg o2 c' + sg o3 d').
Proof.
  intros A B C D BA BB BC BD P1 P2 P3 P4 E E1. pose proof uu_pos as U. pose proof uu_small as US.
  pose proof (near_op o1 _ _ (33 / 32) (33 / 32) _ _ _ _ A B BA BB ltac:(lra)) as X1.
  assert (Y1 : near (ea + eb + 3 * uu) (op o1 a b) (a' + sg o1 b')) by (eapply near_weak; [|exact X1]; nra).
  assert (Z1 : Rabs (a' + sg o1 b') <= 21 / 10) by (eapply Rle_trans; [apply Rabs_triang|]; rewrite sg_abs; lra).
  pose proof (near_op o2 _ _ (21 / 10) (33 / 32) _ _ _ _ Y1 C Z1 BC ltac:(lra)) as X2.
  assert (Y2 : near (ea + eb + ec + 7 * uu) (op o2 (op o1 a b) c) (a' + sg o1 b' + sg o2 c')) by (eapply near_weak; [|exact X2]; nra).
  assert (Z2 : Rabs (a' + sg o1 b' + sg o2 c') <= 32 / 10) by (eapply Rle_trans; [apply Rabs_triang|]; rewrite sg_abs; lra).
  pose proof (near_op o3 _ _ (32 / 10) (33 / 32) _ _ _ _ Y2 D Z2 BD ltac:(lra)) as X3.
  eapply near_weak; [|exact X3]. nra.
Qed.
Lemma pair o e a b a' b' : near e a a' -> near e b b' -> Rabs a' <= 9 / 8 -> Rabs b' <= 9 / 8 -> 0 <= e <= 1 / 64 -> near (2 * e + 4 * uu) (op o a b) (a' + sg o b').
Proof.
  intros A B BA BB E. pose proof uu_pos as U. pose proof (near_op o _ _ (9 / 8) (9 / 8) _ _ _ _ A B BA BB ltac:(lra)) as X1. eapply near_weak; [|exact X1]. nra.
Qed.

Lemma q_entries q : unit4 q -> let A := q2R q in
  4 * (q0 q * q0 q) = m00 A + m11 A + m22 A + 1 /\ 4 * (q1 q * q1 q) = 1 + m00 A + - m11 A + - m22 A /\
  4 * (q2 q * q2 q) = 1 + - m00 A + m11 A + - m22 A /\ 4 * (q3 q * q3 q) = 1 + - m00 A + - m11 A + m22 A /\
  (4 * (q0 q * q1 q) = m21 A + - m12 A /\ 4 * (q0 q * q2 q) = m02 A + - m20 A /\ 4 * (q0 q * q3 q) = m10 A + - m01 A /\
  4 * (q1 q * q2 q) = m01 A + m10 A /\ 4 * (q1 q * q3 q) = m02 A + m20 A /\ 4 * (q2 q * q3 q) = m12 A + m21 A).
Proof.
  destruct q as [a b c d]. intros U A. subst A. rot_unfold. repeat split; lra.
Qed.
Lemma signed q : unit4 q -> (exists r, unit4 r /\ q2R r = q2R q /\ q0 r = Rabs (q0 q)) /\ (exists r, unit4 r /\ q2R r = q2R q /\ q1 r = Rabs (q1 q)) /\
  (exists r, unit4 r /\ q2R r = q2R q /\ q2 r = Rabs (q2 q)) /\ (exists r, unit4 r /\ q2R r = q2R q /\ q3 r = Rabs (q3 q)).
Proof.
  intros U.
  assert (G : forall f : quat -> R, f (qneg q) = - f q -> exists r, unit4 r /\ q2R r = q2R q /\ f r = Rabs (f q)).
  { intros f H. unfold Rabs. destruct (Rcase_abs (f q)); [exists (qneg q); split; [apply unit4_neg, U | split; [apply q2R_neg | exact H]] | exists q; auto]. }
  repeat split; apply G; reflexivity.
Qed.
Lemma unit4_entry q : unit4 q -> Rabs (q0 q) <= 1 /\ Rabs (q1 q) <= 1 /\ Rabs (q2 q) <= 1 /\ Rabs (q3 q) <= 1.
Proof. destruct q as [a b c d]. unfold unit4, qdot. cbn [q0 q1 q2 q3]. intros U. repeat split; apply Rabs_le; nra. Qed.

Lemma le98 x : Rabs x <= 1 -> Rabs x <= 9 / 8. Proof. lra. Qed.
Lemma le33 x : Rabs x <= 1 -> Rabs x <= 33 / 32. Proof. lra. Qed.
(** C97.  For every stored matrix within e <= 1/64 of a rotation Q, in each entry, R2q in
    binary64 returns one of the two unit quaternions of Q up to 3 e + 18 * 2^-53. *)
Theorem C97_accuracy : forall L bdot (M : m3 b64) Q e, is_SO3 Q -> 0 <= e <= 1 / 64 -> stored_matrix e M Q ->
  exists x q, g_R2q (b64_arith L bdot) M = Ok x /\ unit4 q /\ q2R q = Q /\ stored_quat (3 * e + 18 * bpow radix2 (-53)) x q.
Proof.
  intros L bdot M Q e HQ He HM. change (bpow radix2 (-53)) with uu.
  destruct (SO3_entries Q HQ) as (B00 & B01 & B02 & B10 & B11 & B12 & B20 & B21 & B22).
  destruct HM as ((N00 & N01 & N02) & (N10 & N11 & N12) & (N20 & N21 & N22)).
  destruct (R2q_correct Q HQ) as (qq & _ & U & EQ).
  pose proof (q_entries qq U) as QE. cbv zeta in QE. rewrite EQ in QE. destruct QE as (D0 & D1 & D2 & D3 & _).
  destruct (signed qq U) as (W0 & W1 & W2 & W3'). rewrite EQ in *.
  pose proof uu_pos as UP. pose proof uu_small as US.
  destruct M as [[r00 r01 r02] [r10 r11 r12] [r20 r21 r22]]. cbn [w0 w1 w2] in *.
  destruct one_val as [F1 V1]. pose proof (near_exact 0 _ _ (Rle_refl 0) F1 V1) as N1. assert (BO : Rabs 1 <= 1) by (rewrite Rabs_right; lra).
  destruct zero_val as [F0 V0].
  unfold g_R2q. cbn [w0 w1 w2]. unfold g_math_sqrt.
  change (nzero (b64_arith L bdot)) with (b_lit 0 1). change (none1 (b64_arith L bdot)) with (b_lit 1 1). cbn [nlt nadd nsub nmul ndiv nsqrt nlit b64_arith].
  assert (SQ : forall x, Rabs x * Rabs x = x * x) by (intros; rewrite <- Rabs_mult; apply Rabs_right; nra).
  (* the trace *)
  pose proof (near_op true _ _ 1 1 _ _ _ _ N00 N11 B00 B11 ltac:(lra)) as T1. cbn [op sg] in T1.
  assert (BT : Rabs (m00 Q + m11 Q) <= 2) by (eapply Rle_trans; [apply Rabs_triang|]; lra).
  assert (T1' : near (2 * e + 3 * uu) (b_add r00 r11) (m00 Q + m11 Q)) by (eapply near_weak; [|exact T1]; nra).
  pose proof (near_op true _ _ 2 1 _ _ _ _ T1' N22 BT B22 ltac:(lra)) as T2. cbn [op sg] in T2. assert (T2' : near (3 * e + 7 * uu) (b_add (b_add r00 r11) r22) (m00 Q + m11 Q + m22 Q)) by (eapply near_weak; [|exact T2]; nra).
  destruct T2' as [FT ET]. apply Rabs_le_inv in ET.
  assert (SUM : 4 * (q0 qq * q0 qq) + 4 * (q1 qq * q1 qq) + 4 * (q2 qq * q2 qq) + 4 * (q3 qq * q3 qq) = 4) by lra.
  assert (DIF : forall x y v w, near e x v -> near e y w -> (b_lt x y = true -> v <= w + 2 * e) /\ (b_lt x y = false -> w <= v + 2 * e)).
  { intros x y v w [Fx Ex] [Fy Ey]. apply Rabs_le_inv in Ex. apply Rabs_le_inv in Ey. split; intros B.
    - apply (b_lt_val _ _ Fx Fy) in B. lra.
    - destruct (Rlt_le_dec (bval x) (bval y)) as [C|C]; [apply (b_lt_val _ _ Fx Fy) in C; congruence | lra]. }
  assert (POS : forall x, 92 / 100 <= 4 * (x * x) -> 0 < Rabs x). { intros x H. apply Rabs_pos_lt. intros ->. lra. }
  destruct (b_lt (b_lit 0 1) (b_add (b_add r00 r11) r22)) eqn:C0.
  - (* q0 is large *)
    apply (b_lt_val _ _ F0 FT) in C0. rewrite V0 in C0. assert (LQ : 92 / 100 <= 4 * (q0 qq * q0 qq)) by lra. pose proof (POS _ LQ) as PQ.
    destruct W0 as (q & Uq & Eq & Aq). rewrite <- (SQ (q0 qq)), <- Aq in LQ, D0. rewrite <- Aq in PQ.
    pose proof (q_entries q Uq) as QE. cbv zeta in QE. rewrite Eq in QE. destruct QE as (E0 & _ & _ & _ & E01 & E02 & E03 & E12 & E13 & E23).
    destruct (unit4_entry q Uq) as (Q0 & Q1 & Q2 & Q3). apply le33 in Q0. apply le33 in Q1. apply le33 in Q2. apply le33 in Q3. assert (HP : 0 < q0 q <= 33 / 32) by (apply Rabs_le_inv in Q0; lra).
    pose proof (chain true true true e e e 0 e _ _ _ _ _ _ _ _ N00 N11 N22 N1 (le33 _ B00) (le33 _ B11) (le33 _ B22) (le33 _ BO) ltac:(lra) ltac:(lra) ltac:(lra) ltac:(lra) ltac:(lra) ltac:(lra)) as X. cbn [op sg] in X. rewrite <- E0 in X.
    destruct (core_root e (q0 q) _ He HP LQ X) as [-> _]. cbn [bind]. eexists. exists q. split; [reflexivity|]. split; [exact Uq|]. split; [exact Eq|].
    pose proof (pair false e _ _ _ _ N21 N12 (le98 _ B21) (le98 _ B12) He) as Y1. pose proof (pair false e _ _ _ _ N02 N20 (le98 _ B02) (le98 _ B20) He) as Y2. pose proof (pair false e _ _ _ _ N10 N01 (le98 _ B10) (le98 _ B01) He) as Y3. cbn [op sg] in Y1, Y2, Y3.
    rewrite <- E01 in Y1. rewrite <- E02 in Y2. rewrite <- E03 in Y3.
    split; [eapply near_weak; [|apply (core_p e (q0 q)); assumption]; lra|]. split; [|split]; apply (core_q e (q0 q)); assumption.
  - assert (TN : m00 Q + m11 Q + m22 Q <= 3 * e + 7 * uu).
    { destruct (Rlt_le_dec (bval (b_lit 0 1)) (bval (b_add (b_add r00 r11) r22))) as [C|C]; [apply (b_lt_val _ _ F0 FT) in C; congruence | lra]. }
    destruct (b_lt r11 r00 && b_lt r22 r00)%bool eqn:C1.
    + (* q1 is large *)
      apply andb_prop in C1 as [C1 C2]. apply (DIF _ _ _ _ N11 N00) in C1. apply (DIF _ _ _ _ N22 N00) in C2.
      assert (LQ : 92 / 100 <= 4 * (q1 qq * q1 qq)) by lra. pose proof (POS _ LQ) as PQ.
      destruct W1 as (q & Uq & Eq & Aq). rewrite <- (SQ (q1 qq)), <- Aq in LQ, D1. rewrite <- Aq in PQ.
      pose proof (q_entries q Uq) as QE. cbv zeta in QE. rewrite Eq in QE. destruct QE as (_ & E0 & _ & _ & E01 & E02 & E03 & E12 & E13 & E23).
      destruct (unit4_entry q Uq) as (Q0 & Q1 & Q2 & Q3). apply le33 in Q0. apply le33 in Q1. apply le33 in Q2. apply le33 in Q3. assert (HP : 0 < q1 q <= 33 / 32) by (apply Rabs_le_inv in Q1; lra).
      pose proof (chain true false false 0 e e e e _ _ _ _ _ _ _ _ N1 N00 N11 N22 (le33 _ BO) (le33 _ B00) (le33 _ B11) (le33 _ B22) ltac:(lra) ltac:(lra) ltac:(lra) ltac:(lra) ltac:(lra) ltac:(lra)) as X. cbn [op sg] in X. rewrite <- E0 in X.
      destruct (core_root e (q1 q) _ He HP LQ X) as [-> _]. cbn [bind]. eexists. exists q. split; [reflexivity|]. split; [exact Uq|]. split; [exact Eq|].
      pose proof (pair false e _ _ _ _ N21 N12 (le98 _ B21) (le98 _ B12) He) as Y1. pose proof (pair true e _ _ _ _ N01 N10 (le98 _ B01) (le98 _ B10) He) as Y2. pose proof (pair true e _ _ _ _ N02 N20 (le98 _ B02) (le98 _ B20) He) as Y3. cbn [op sg] in Y1, Y2, Y3.
      rewrite <- E01, (Rmult_comm (q0 q)) in Y1. rewrite <- E12 in Y2. rewrite <- E13 in Y3.
      split; [|split; [eapply near_weak; [|apply (core_p e (q1 q)); assumption]; lra | split]]; apply (core_q e (q1 q)); assumption.
    + assert (CX : m00 Q <= m11 Q + 2 * e \/ m00 Q <= m22 Q + 2 * e).
      { apply andb_false_iff in C1 as [C1|C1]; [left; apply (DIF _ _ _ _ N11 N00) in C1 | right; apply (DIF _ _ _ _ N22 N00) in C1]; exact C1. }
      destruct (b_lt r22 r11) eqn:C2.
      * (* q2 is large *)
        apply (DIF _ _ _ _ N22 N11) in C2.
        assert (LQ : 92 / 100 <= 4 * (q2 qq * q2 qq)) by lra. pose proof (POS _ LQ) as PQ.
        destruct W2 as (q & Uq & Eq & Aq). rewrite <- (SQ (q2 qq)), <- Aq in LQ, D2. rewrite <- Aq in PQ.
        pose proof (q_entries q Uq) as QE. cbv zeta in QE. rewrite Eq in QE. destruct QE as (_ & _ & E0 & _ & E01 & E02 & E03 & E12 & E13 & E23).
        destruct (unit4_entry q Uq) as (Q0 & Q1 & Q2 & Q3). apply le33 in Q0. apply le33 in Q1. apply le33 in Q2. apply le33 in Q3. assert (HP : 0 < q2 q <= 33 / 32) by (apply Rabs_le_inv in Q2; lra).
        pose proof (chain false true false 0 e e e e _ _ _ _ _ _ _ _ N1 N00 N11 N22 (le33 _ BO) (le33 _ B00) (le33 _ B11) (le33 _ B22) ltac:(lra) ltac:(lra) ltac:(lra) ltac:(lra) ltac:(lra) ltac:(lra)) as X. cbn [op sg] in X. rewrite <- E0 in X.
        destruct (core_root e (q2 q) _ He HP LQ X) as [-> _]. cbn [bind]. eexists. exists q. split; [reflexivity|]. split; [exact Uq|]. split; [exact Eq|].
        pose proof (pair false e _ _ _ _ N02 N20 (le98 _ B02) (le98 _ B20) He) as Y1. pose proof (pair true e _ _ _ _ N01 N10 (le98 _ B01) (le98 _ B10) He) as Y2. pose proof (pair true e _ _ _ _ N12 N21 (le98 _ B12) (le98 _ B21) He) as Y3. cbn [op sg] in Y1, Y2, Y3.
        rewrite <- E02, (Rmult_comm (q0 q)) in Y1. rewrite <- E12, (Rmult_comm (q1 q)) in Y2. rewrite <- E23 in Y3.
        split; [|split; [|split; [eapply near_weak; [|apply (core_p e (q2 q)); assumption]; lra |]]]; apply (core_q e (q2 q)); assumption.
      * (* q3 is large *)
        apply (DIF _ _ _ _ N22 N11) in C2.
        assert (LQ : 92 / 100 <= 4 * (q3 qq * q3 qq)) by lra. pose proof (POS _ LQ) as PQ.
        destruct W3' as (q & Uq & Eq & Aq). rewrite <- (SQ (q3 qq)), <- Aq in LQ, D3. rewrite <- Aq in PQ.
        pose proof (q_entries q Uq) as QE. cbv zeta in QE. rewrite Eq in QE. destruct QE as (_ & _ & _ & E0 & E01 & E02 & E03 & E12 & E13 & E23).
        destruct (unit4_entry q Uq) as (Q0 & Q1 & Q2 & Q3). apply le33 in Q0. apply le33 in Q1. apply le33 in Q2. apply le33 in Q3. assert (HP : 0 < q3 q <= 33 / 32) by (apply Rabs_le_inv in Q3; lra).
        pose proof (chain false false true 0 e e e e _ _ _ _ _ _ _ _ N1 N00 N11 N22 (le33 _ BO) (le33 _ B00) (le33 _ B11) (le33 _ B22) ltac:(lra) ltac:(lra) ltac:(lra) ltac:(lra) ltac:(lra) ltac:(lra)) as X. cbn [op sg] in X. rewrite <- E0 in X.
        destruct (core_root e (q3 q) _ He HP LQ X) as [-> _]. cbn [bind]. eexists. exists q. split; [reflexivity|]. split; [exact Uq|]. split; [exact Eq|].
        pose proof (pair false e _ _ _ _ N10 N01 (le98 _ B10) (le98 _ B01) He) as Y1. pose proof (pair true e _ _ _ _ N02 N20 (le98 _ B02) (le98 _ B20) He) as Y2. pose proof (pair true e _ _ _ _ N12 N21 (le98 _ B12) (le98 _ B21) He) as Y3. cbn [op sg] in Y1, Y2, Y3.
        rewrite <- E03, (Rmult_comm (q0 q)) in Y1. rewrite <- E13, (Rmult_comm (q1 q)) in Y2. rewrite <- E23, (Rmult_comm (q2 q)) in Y3.
        split; [|split; [|split; [|eapply near_weak; [|apply (core_p e (q3 q)); assumption]; lra]]]; apply (core_q e (q3 q)); assumption.
Qed.

(* ---- q2R ---- *)
Lemma lin4 p q r s a b c d m : a * a + b * b + c * c + d * d = 1 -> p * p + q * q + r * r + s * s <= m * m -> 0 <= m -> p * a + q * b + r * c + s * d <= m.
Proof.
  intros U W M. set (x := p * a + q * b + r * c + s * d).
  assert (X : x * x <= m * m).
  { apply Rle_trans with ((p * p + q * q + r * r + s * s) * (a * a + b * b + c * c + d * d)); [|rewrite U; lra].
    assert (0 <= (p * b - q * a) * (p * b - q * a) + (p * c - r * a) * (p * c - r * a) + (p * d - s * a) * (p * d - s * a) + (q * c - r * b) * (q * c - r * b) + (q * d - s * b) * (q * d - s * b) + (r * d - s * c) * (r * d - s * c)).
    { repeat apply Rplus_le_le_0_compat; apply Rle_0_sqr. }
    unfold x. lra. }
  destruct (Rle_dec x m) as [H|H]; [exact H|]. exfalso. apply Rnot_le_lt in H. nra.
Qed.
Section Q2R.
Context (d : R) (Hd : 0 <= d <= 1 / 16) (a : R).
(** one entry: i of the identity, h of qhat, z of qhat2 *)
Lemma q2R_entry s i h z i' h' z' D : near (2 * d + 3 * uu) s (2 * a) -> bfin i -> bval i = i' -> 0 <= i' <= 1 -> near d h h' -> near (D + 10 * uu) z z' ->
  Rabs a <= 1 -> Rabs h' <= 1 -> Rabs (2 * a * h') <= 1 -> Rabs z' <= 1 -> 0 <= D <= 1 / 5 ->
  near (2 * d * (Rabs h' + Rabs a) + 2 * d * d + 2 * D + 40 * uu) (b_add (b_add i (b_mul s h)) (b_mul (b_lit 2 1) z)) (i' + 2 * a * h' + 2 * z').
Proof.
  intros Ns Fi Vi Bi Nh Nz Ba Bh Bp Bz HD. pose proof uu_pos as U. pose proof uu_small as US. destruct two_val as [F2 V2].
  pose proof (Rabs_pos h') as Ph. pose proof (Rabs_pos a) as Pa.
  assert (A2 : Rabs (2 * a) = 2 * Rabs a) by (rewrite Rabs_mult, Rabs_right; lra).
  assert (dd : 0 <= d * d <= 1 / 16 * d) by nra. assert (dh : 0 <= d * Rabs h' <= d) by nra. assert (da : 0 <= d * Rabs a <= d) by nra. assert (uh : 0 <= uu * Rabs h' <= uu) by nra. assert (du : 0 <= d * uu <= 1 / 16 * uu) by nra.
  pose proof (near_mul _ _ 2 _ _ _ _ Ns Nh ltac:(rewrite A2; lra) ltac:(lra)) as X1. rewrite A2 in X1.
  assert (Y1 : near (2 * d * (Rabs h' + Rabs a) + 2 * d * d + 6 * uu) (b_mul s h) (2 * a * h')) by (eapply near_weak; [|exact X1]; lra).
  assert (Ni : near 0 i i') by (apply near_exact; [lra | exact Fi | exact Vi]). assert (Bi' : Rabs i' <= 1) by (apply Rabs_le; lra).
  pose proof (near_op true _ _ 1 1 _ _ _ _ Ni Y1 Bi' Bp ltac:(lra)) as X2. cbn [op sg] in X2.
  assert (Y2 : near (2 * d * (Rabs h' + Rabs a) + 2 * d * d + 9 * uu) (b_add i (b_mul s h)) (i' + 2 * a * h')).
  { eapply near_weak; [|exact X2]. assert (0 + (2 * d * (Rabs h' + Rabs a) + 2 * d * d + 6 * uu) <= 1 / 2) by lra. nra. }
  pose proof (near_mul 0 _ (25 / 10) _ _ _ _ (near_exact 0 _ _ (Rle_refl 0) F2 V2) Nz ltac:(rewrite (Rabs_mult 2 z'), (Rabs_right 2) by lra; lra) ltac:(lra)) as X3. rewrite (Rabs_right 2) in X3 by lra.
  assert (Y3 : near (2 * D + 23 * uu) (b_mul (b_lit 2 1) z) (2 * z')) by (eapply near_weak; [|exact X3]; lra).
  assert (B1 : Rabs (i' + 2 * a * h') <= 2) by (eapply Rle_trans; [apply Rabs_triang|]; lra). assert (B2 : Rabs (2 * z') <= 2) by (rewrite Rabs_mult, (Rabs_right 2); lra).
  pose proof (near_op true _ _ 2 2 _ _ _ _ Y2 Y3 B1 B2 ltac:(lra)) as X4. cbn [op sg] in X4. eapply near_weak; [|exact X4].
  assert (2 * d * (Rabs h' + Rabs a) + 2 * d * d + 9 * uu + (2 * D + 23 * uu) <= 1) by lra. nra.
Qed.
Lemma q2R_full bdot s i h i' h' u0 u1 u2 v0 v1 v2 u0' u1' u2' v0' v1' v2' z' : In bdot b_dots -> near (2 * d + 3 * uu) s (2 * a) -> bfin i -> bval i = i' -> 0 <= i' <= 1 -> near d h h' ->
  near d u0 u0' -> near d u1 u1' -> near d u2 u2' -> near d v0 v0' -> near d v1 v1' -> near d v2 v2' ->
  Rabs u0' <= 1 -> Rabs u1' <= 1 -> Rabs u2' <= 1 -> Rabs v0' <= 1 -> Rabs v1' <= 1 -> Rabs v2' <= 1 ->
  Rabs a <= 1 -> Rabs h' <= 1 -> Rabs (2 * a * h') <= 1 -> Rabs (u0' * v0') + Rabs (u1' * v1') + Rabs (u2' * v2') <= 1 ->
  Rabs u0' + Rabs u1' + Rabs u2' + (Rabs v0' + Rabs v1' + Rabs v2') <= 3 ->
  Rabs h' + Rabs a + (Rabs u0' + Rabs u1' + Rabs u2' + (Rabs v0' + Rabs v1' + Rabs v2')) <= 7 / 2 ->
  u0' * v0' + u1' * v1' + u2' * v2' = z' ->
  near (15 / 2 * d + 40 * uu) (b_add (b_add i (b_mul s h)) (b_mul (b_lit 2 1) (bdot [u0; u1; u2] [v0; v1; v2]))) (i' + 2 * a * h' + 2 * z').
Proof.
  intros HD Ns Fi Vi Bi Nh U0 U1 U2 V0 V1 V2 A0 A1 A2 B0 B1 B2 Ba Bh Bp Bs W1 W2 Ez. pose proof uu_pos as U. pose proof uu_small as US.
  set (W := Rabs u0' + Rabs u1' + Rabs u2' + (Rabs v0' + Rabs v1' + Rabs v2')) in *.
  assert (W0 : 0 <= W) by (unfold W; repeat apply Rplus_le_le_0_compat; apply Rabs_pos).
  assert (dd : 0 <= d * d <= 1 / 16 * d) by nra. assert (dW : 0 <= d * W <= 3 * d) by nra.
  set (D := d * W + 3 * (d * d)). assert (HDD : 0 <= D <= 1 / 5) by (unfold D; lra).
  assert (Nz : near (D + 10 * uu) (bdot [u0; u1; u2] [v0; v1; v2]) z').
  { rewrite <- Ez. eapply near_weak; [|apply (near_dot3 bdot d d D (6 / 5)); try eassumption; try lra; unfold D, W; lra]. lra. }
  assert (Bz : Rabs z' <= 1). { rewrite <- Ez. eapply Rle_trans; [apply Rabs_triang|]. pose proof (Rabs_triang (u0' * v0') (u1' * v1')). lra. }
  eapply near_weak; [|eapply q2R_entry; eassumption].
  assert (d * (Rabs h' + Rabs a + W) <= d * (7 / 2)) by (apply Rmult_le_compat_l; lra). unfold D. lra.
Qed.
End Q2R.

(** C98.  q2R of a quaternion stored within d <= 1/16 of a unit quaternion q, in each entry, is
    within 7.5 d + 40 * 2^-53 of the rotation of q. *)
Theorem C98_accuracy : forall L bdot (x : v4 b64) q d, In bdot b_dots -> unit4 q -> 0 <= d <= 1 / 16 -> stored_quat d x q ->
  stored_matrix (15 / 2 * d + 40 * bpow radix2 (-53)) (g_q2R (b64_arith L bdot) x) (q2R q).
Proof.
  intros L bdot x q d HD Uq Hd (N0 & N1 & N2 & N3). change (bpow radix2 (-53)) with uu. pose proof uu_pos as U. pose proof uu_small as US.
  destruct (unit4_entry q Uq) as (B0 & B1 & B2 & B3). destruct x as [x0 x1 x2 x3]. cbn [y0 y1 y2 y3] in *.
  destruct two_val as [F2 V2]. destruct one_val as [F1 V1]. destruct zero_val as [F0 V0].
  destruct q as [a b c e]. unfold unit4, qdot in Uq. cbn [q0 q1 q2 q3] in *.
  assert (Ns : near (2 * d + 3 * uu) (b_mul (b_lit 2 1) x0) (2 * a)).
  { eapply near_weak; [|apply (near_mul 0 _ (22 / 10) _ _ _ _ (near_exact 0 _ _ (Rle_refl 0) F2 V2) N0)]; rewrite ?(Rabs_right 2) by lra; rewrite ?Rabs_mult, ?(Rabs_right 2) by lra; lra. }
  assert (NZ : near d (b_lit 0 1) 0) by (apply near_exact; [lra | exact F0 | exact V0]). assert (BZ : Rabs 0 <= 1) by (rewrite Rabs_R0; lra).
  pose proof (near_opp _ _ _ N1) as M1. pose proof (near_opp _ _ _ N2) as M2. pose proof (near_opp _ _ _ N3) as M3'.
  assert (C1 : Rabs (- b) <= 1) by (rewrite Rabs_Ropp; exact B1). assert (C2 : Rabs (- c) <= 1) by (rewrite Rabs_Ropp; exact B2). assert (C3 : Rabs (- e) <= 1) by (rewrite Rabs_Ropp; exact B3).
  assert (UA : Rabs a * Rabs a + Rabs b * Rabs b + Rabs c * Rabs c + Rabs e * Rabs e = 1).
  { rewrite <- !Rabs_mult. rewrite !Rabs_right by nra. exact Uq. }
  pose proof (Rabs_pos a) as PA. pose proof (Rabs_pos b) as PB. pose proof (Rabs_pos c) as PC. pose proof (Rabs_pos e) as PE.
  assert (S0 : forall u, 0 <= u * u) by (intros; nra). pose proof (S0 a) as Sa. pose proof (S0 b) as Sb. pose proof (S0 c) as Sc. pose proof (S0 e) as Se.
  assert (BI1 : 0 <= 1 <= 1) by lra. assert (BI0 : 0 <= 0 <= 1) by lra.
  assert (PAIR : forall u v, u * u + v * v <= 1 -> Rabs (2 * u * v) <= 1). { intros u v H. pose proof (S0 (u - v)). pose proof (S0 (u + v)). apply Rabs_le. lra. }
  assert (PAIR' : forall u v, u * u + v * v <= 1 -> Rabs (2 * u * - v) <= 1). { intros u v H. rewrite Ropp_mult_distr_r_reverse, Rabs_Ropp. apply PAIR, H. }
  assert (SQ : forall u, Rabs (u * u) = u * u) by (intros; apply Rabs_right, Rle_ge, S0).
  assert (SQ' : forall u, Rabs (u * - u) = u * u) by (intros; rewrite Rabs_mult, Rabs_Ropp, <- Rabs_mult; apply SQ).
  assert (SQ'' : forall u, Rabs (- u * u) = u * u) by (intros; rewrite Rabs_mult, Rabs_Ropp, <- Rabs_mult; apply SQ).
  assert (ZL : forall u, 0 * u = 0) by (intros; ring). assert (ZR : forall u, u * 0 = 0) by (intros; ring).
  assert (PR : forall u v, u * u + v * v <= 1 -> Rabs (u * v) <= 1). { intros u v H. pose proof (S0 (u - v)). pose proof (S0 (u + v)). apply Rabs_le. lra. }
  assert (TOP : forall w0 w1 w2 w3 m, w0 * w0 + w1 * w1 + w2 * w2 + w3 * w3 <= m * m -> 0 <= m -> w0 * Rabs a + w1 * Rabs b + w2 * Rabs c + w3 * Rabs e <= m) by (intros; apply lin4; assumption).
  pose proof (TOP 1 2 2 0 3 ltac:(lra) ltac:(lra)) as T1. pose proof (TOP 1 2 0 2 3 ltac:(lra) ltac:(lra)) as T2. pose proof (TOP 1 0 2 2 3 ltac:(lra) ltac:(lra)) as T3.
  pose proof (TOP 1 3 1 1 (7 / 2) ltac:(lra) ltac:(lra)) as T4. pose proof (TOP 1 1 3 1 (7 / 2) ltac:(lra) ltac:(lra)) as T5. pose proof (TOP 1 1 1 3 (7 / 2) ltac:(lra) ltac:(lra)) as T6.
  pose proof (TOP 0 2 1 1 3 ltac:(lra) ltac:(lra)) as T7. pose proof (TOP 0 1 2 1 3 ltac:(lra) ltac:(lra)) as T8. pose proof (TOP 0 1 1 2 3 ltac:(lra) ltac:(lra)) as T9.
  unfold g_q2R, stored_matrix, g_mm, g_I3, g_hat, v3zip, v3map, v3cols, g_dot3. cbn [y0 y1 y2 y3 w0 w1 w2].
  change (nzero (b64_arith L bdot)) with (b_lit 0 1). change (none1 (b64_arith L bdot)) with (b_lit 1 1). cbn [nneg nadd nmul nlit ndot b64_arith num]. cbv beta iota delta [w0 w1 w2 v3map].
  assert (EQ : q2R (Q4 a b c e) = M3 (1 + 2 * a * 0 + 2 * (- (c * c) - e * e)) (0 + 2 * a * (- e) + 2 * (b * c)) (0 + 2 * a * c + 2 * (b * e))
     (0 + 2 * a * e + 2 * (b * c)) (1 + 2 * a * 0 + 2 * (- (b * b) - e * e)) (0 + 2 * a * (- b) + 2 * (c * e))
     (0 + 2 * a * (- c) + 2 * (b * e)) (0 + 2 * a * b + 2 * (c * e)) (1 + 2 * a * 0 + 2 * (- (b * b) - c * c))) by (rot_unfold; f_equal; ring).
  rewrite EQ. cbn [m00 m01 m02 m10 m11 m12 m20 m21 m22].
  split; [|split]; (split; [|split]);
    (eapply (q2R_full d Hd a); [exact HD | exact Ns | first [exact F1 | exact F0] | first [exact V1 | exact V0] | lra |
      eassumption | eassumption | eassumption | eassumption | eassumption | eassumption | eassumption | eassumption | eassumption | eassumption | eassumption | eassumption | assumption |
      exact B0 | eassumption | rewrite ?ZR, ?Rabs_R0; first [lra | apply PAIR'; lra | apply PAIR; lra] |
      rewrite ?ZL, ?ZR, ?Rabs_R0, ?SQ, ?SQ', ?SQ''; first [lra | idtac] |
      rewrite ?Rabs_R0, ?Rabs_Ropp; lra | rewrite ?Rabs_R0, ?Rabs_Ropp; lra | ring]).
  all: try (match goal with |- context [Rabs (?u * ?v)] => assert (Rabs (u * v) <= 1) by (apply PR; lra) end; lra).
Qed.

Lemma stored_weak e e' M Q : e <= e' -> stored_matrix e M Q -> stored_matrix e' M Q.
Proof. intros H ((A & B & C) & (D & E & F) & (G & I & J)). repeat split; try (eapply near_weak; [exact H|]; assumption); match goal with H1 : near _ ?x _ |- bfin ?x => apply H1 | H1 : near _ ?x ?v |- Rabs (bval ?x - ?v) <= _ => eapply Rle_trans; [apply H1 | exact H] end. Qed.
Lemma stored_quat_weak e e' x q : e <= e' -> stored_quat e x q -> stored_quat e' x q.
Proof. intros H (A & B & C & D). split; [|split; [|split]]; (eapply near_weak; [exact H|]; assumption). Qed.
(** A rotation converted to a quaternion and back. *)
Theorem C98_roundtrip : forall L bdot (M : m3 b64) Q e, In bdot b_dots -> is_SO3 Q -> 0 <= e <= 1 / 64 -> stored_matrix e M Q ->
  exists x, g_R2q (b64_arith L bdot) M = Ok x /\ stored_matrix (23 * e + bpow radix2 (-45)) (g_q2R (b64_arith L bdot) x) Q.
Proof.
  intros L bdot M Q e HD HQ He HM. destruct (C97_accuracy L bdot M Q e HQ He HM) as (x & q & E & U & <- & S). exists x. split; [exact E|].
  pose proof uu_pos as UP. pose proof uu_small as US. change (bpow radix2 (-53)) with uu in S.
  pose proof (C98_accuracy L bdot x q (3 * e + 18 * uu) HD U ltac:(lra) S) as R. change (bpow radix2 (-53)) with uu in R.
  assert (bpow radix2 (-45) = 256 * uu) as -> by (rewrite uu_val'; cbn; lra). eapply stored_weak; [|exact R]. lra.
Qed.
(** A quaternion converted to a rotation and back, up to the sign. *)
Theorem C98_back : forall L bdot (x : v4 b64) q d, In bdot b_dots -> unit4 q -> 0 <= d <= 1 / 1024 -> stored_quat d x q ->
  exists x', g_R2q (b64_arith L bdot) (g_q2R (b64_arith L bdot) x) = Ok x' /\
    (stored_quat (23 * d + bpow radix2 (-45)) x' q \/ stored_quat (23 * d + bpow radix2 (-45)) x' (qneg q)).
Proof.
  intros L bdot x q d HD U Hd HS. pose proof uu_pos as UP. pose proof uu_small as US.
  pose proof (C98_accuracy L bdot x q d HD U ltac:(lra) HS) as R. change (bpow radix2 (-53)) with uu in R.
  destruct (C97_accuracy L bdot _ (q2R q) (15 / 2 * d + 40 * uu) (q2R_SO3 q U) ltac:(lra) R) as (x' & r & E & Ur & Er & S). exists x'. split; [exact E|].
  change (bpow radix2 (-53)) with uu in S. assert (bpow radix2 (-45) = 256 * uu) as -> by (rewrite uu_val'; cbn; lra).
  assert (S' : stored_quat (23 * d + 256 * uu) x' r) by (eapply stored_quat_weak; [|exact S]; lra).
  destruct (q2R_inj r q Ur U Er) as [-> | ->]; [left | right]; exact S'.
Qed.

(* ---- quatproduct ---- *)
(** the matrix holds the entries of the quaternion unchanged *)
Lemma prod_diag x v : isv x v -> isv (b_add (b_mul x (b_lit 1 1)) (b_lit 0 1)) v.
Proof. intros H. apply isv_add0; [apply isv_mul1; [exact H | exact one_val] | exact zero_val]. Qed.
Lemma prod_off x y v : bfin x -> isv y v -> isv (b_add (b_mul x (b_lit 0 1)) y) v.
Proof. intros F H. apply isv_0add; [apply isv_mul0; [exact F | exact zero_val] | exact H]. Qed.
Lemma near_isv e x y v w : near e x v -> isv y (bval x) -> v = w -> near e y w.
Proof. intros [_ E] [F V] <-. split; [exact F|]. rewrite V. exact E. Qed.
Lemma abs_sum4 a b c d : a * a + b * b + c * c + d * d = 1 -> Rabs a + Rabs b + Rabs c + Rabs d <= 2.
Proof.
  intros U. assert (UA : Rabs a * Rabs a + Rabs b * Rabs b + Rabs c * Rabs c + Rabs d * Rabs d = 1) by (rewrite <- !Rabs_mult; rewrite !Rabs_right by nra; exact U).
  pose proof (lin4 1 1 1 1 _ _ _ _ 2 UA ltac:(lra) ltac:(lra)). lra.
Qed.
Lemma abs_dot4 a b c d x y z w : a * a + b * b + c * c + d * d = 1 -> x * x + y * y + z * z + w * w = 1 ->
  Rabs (a * x) + Rabs (b * y) + Rabs (c * z) + Rabs (d * w) <= 1.
Proof.
  intros U V. assert (UA : forall p q r s, p * p + q * q + r * r + s * s = 1 -> Rabs p * Rabs p + Rabs q * Rabs q + Rabs r * Rabs r + Rabs s * Rabs s = 1) by (intros; rewrite <- !Rabs_mult; rewrite !Rabs_right by nra; assumption).
  pose proof (UA _ _ _ _ U) as U1. pose proof (UA _ _ _ _ V) as V1. rewrite !Rabs_mult.
  pose proof (lin4 (Rabs a) (Rabs b) (Rabs c) (Rabs d) _ _ _ _ 1 V1 ltac:(lra) ltac:(lra)). lra.
Qed.

(** C99.  The quaternion product, [np.dot(quatproduct(x), y)], in binary64. *)
Theorem C99_product : forall L bdot (x y : v4 b64) p q d, In bdot b_dots -> unit4 p -> unit4 q -> 0 <= d <= 1 / 16 -> stored_quat d x p -> stored_quat d y q ->
  stored_quat (17 / 4 * d + 13 * bpow radix2 (-53)) (g_mv4 (b64_arith L bdot) (g_quatproduct (b64_arith L bdot) x) y) (hamilton p q).
Proof.
  intros L bdot x y p q d HD Up Uq Hd (X0 & X1 & X2 & X3) (Y0 & Y1 & Y2 & Y3). change (bpow radix2 (-53)) with uu. pose proof uu_pos as U. pose proof uu_small as US.
  destruct (unit4_entry p Up) as (A0 & A1 & A2 & A3). destruct (unit4_entry q Uq) as (B0 & B1 & B2 & B3).
  destruct x as [x0 x1 x2 x3], y as [z0 z1 z2 z3], p as [a b c e], q as [f g h i]. unfold unit4, qdot in Up, Uq. cbn [y0 y1 y2 y3 q0 q1 q2 q3] in *.
  assert (V : forall z v, near d z v -> isv z (bval z)) by (intros z v [F _]; split; [exact F | reflexivity]).
  assert (O : forall z v, near d z v -> isv (Bopp z) (bval (Bopp z))) by (intros z v N; destruct (near_opp _ _ _ N) as [F _]; split; [exact F | reflexivity]).
  pose proof (near_opp _ _ _ X1) as M1. pose proof (near_opp _ _ _ X2) as M2. pose proof (near_opp _ _ _ X3) as M3'.
  assert (OFF : forall y v, near d y v -> near d (b_add (b_mul x0 (b_lit 0 1)) y) v) by (intros z v N; eapply near_isv; [exact N | apply prod_off; [apply X0 | eapply V; exact N] | reflexivity]).
  assert (DIA : near d (b_add (b_mul x0 (b_lit 1 1)) (b_lit 0 1)) a) by (eapply near_isv; [exact X0 | apply prod_diag; eapply V; exact X0 | reflexivity]).
  unfold g_mv4, g_quatproduct, g_I3, g_hat, v3zip. cbn [y0 y1 y2 y3 w0 w1 w2].
  change (nzero (b64_arith L bdot)) with (b_lit 0 1). change (none1 (b64_arith L bdot)) with (b_lit 1 1). cbn [nneg nadd nmul ndot b64_arith num].
  assert (ROW : forall u0 u1 u2 u3 u0' u1' u2' u3', near d u0 u0' -> near d u1 u1' -> near d u2 u2' -> near d u3 u3' -> u0' * u0' + u1' * u1' + u2' * u2' + u3' * u3' = 1 ->
    forall v, u0' * f + u1' * g + u2' * h + u3' * i = v -> near (17 / 4 * d + 13 * uu) (bdot [u0; u1; u2; u3] [z0; z1; z2; z3]) v).
  { intros u0 u1 u2 u3 u0' u1' u2' u3' N0 N1 N2 N3 UU v <-.
    destruct (unit4_entry (Q4 u0' u1' u2' u3') UU) as (E0 & E1 & E2 & E3). cbn [q0 q1 q2 q3] in *.
    pose proof (abs_sum4 _ _ _ _ UU) as S1. pose proof (abs_sum4 _ _ _ _ Uq) as S2. pose proof (abs_dot4 _ _ _ _ _ _ _ _ UU Uq) as S3.
    assert (dd : 0 <= d * d <= 1 / 16 * d) by nra.
    eapply near_weak; [|apply (near_dot4 bdot d d (17 / 4 * d) (13 / 10)); try assumption; try lra].
    - lra.
    - assert (d * (Rabs f + Rabs g + Rabs h + Rabs i) <= d * 2) by (apply Rmult_le_compat_l; lra). assert (d * (Rabs u0' + Rabs u1' + Rabs u2' + Rabs u3') <= d * 2) by (apply Rmult_le_compat_l; lra). lra. }
  assert (EH : hamilton (Q4 a b c e) (Q4 f g h i) = Q4 (a * f - b * g - c * h - e * i) (a * g + b * f + c * i - e * h) (a * h - b * i + c * f + e * g) (a * i + b * h - c * g + e * f)).
  { clear. rot_unfold. f_equal; ring. }
  rewrite EH. unfold stored_quat. cbn [y0 y1 y2 y3 q0 q1 q2 q3].
  split; [|split; [|split]]; (eapply ROW; [first [eassumption | apply OFF; eassumption] | first [eassumption | apply OFF; eassumption] | first [eassumption | apply OFF; eassumption] | first [eassumption | apply OFF; eassumption] | lra | ring]).
Qed.
(** the product stands for the composed rotation *)
Theorem C99_homomorphism : forall L bdot (x y : v4 b64) p q d, In bdot b_dots -> unit4 p -> unit4 q -> 0 <= d <= 1 / 128 -> stored_quat d x p -> stored_quat d y q ->
  let A := b64_arith L bdot in
  stored_matrix (32 * d + bpow radix2 (-45)) (g_q2R A (g_mv4 A (g_quatproduct A x) y)) (mmul (q2R p) (q2R q)).
Proof.
  intros L bdot x y p q d HD Up Uq Hd Sx Sy A. pose proof uu_pos as UP. pose proof uu_small as US.
  pose proof (C99_product L bdot x y p q d HD Up Uq ltac:(lra) Sx Sy) as S. change (bpow radix2 (-53)) with uu in S.
  pose proof (C98_accuracy L bdot _ _ (17 / 4 * d + 13 * uu) HD (unit4_hamilton p q Up Uq) ltac:(lra) S) as R. rewrite (q2R_hamilton p q Up Uq) in R. change (bpow radix2 (-53)) with uu in R.
  assert (bpow radix2 (-45) = 256 * uu) as -> by (rewrite uu_val'; cbn; lra). eapply stored_weak; [|exact R]. lra.
Qed.
(** quatcomplement is exact *)
Theorem C99_complement : forall L bdot (x : v4 b64) q d, stored_quat d x q -> stored_quat d (g_quatcomplement (b64_arith L bdot) x) (qconj q).
Proof.
  intros L bdot x q d (N0 & N1 & N2 & N3). destruct x as [x0 x1 x2 x3], q as [a b c e]. cbn [y0 y1 y2 y3 q0 q1 q2 q3] in *.
  unfold g_quatcomplement, stored_quat, qconj, qmk, vneg, qvec. cbn [y0 y1 y2 y3 q0 q1 q2 q3 vx vy vz]. change (none1 (b64_arith L bdot)) with (b_lit 1 1). cbn [nneg nmul b64_arith].
  assert (M : forall x v, near d x v -> near d (b_mul (Bopp (b_lit 1 1)) x) (- v)).
  { intros x v [F E]. assert (VO : bval (Bopp (b_lit 1 1)) = -1) by (vm_compute; lra).
    assert (I : isv (b_mul (Bopp (b_lit 1 1)) x) (- bval x)).
    { destruct (mul_range (Bopp (b_lit 1 1)) x eq_refl F) as [FM VM]; rewrite VO in *.
      - apply (in_range_exact (Bopp x)). unfold bval. rewrite B2R_Bopp. ring.
      - split; [exact FM|]. rewrite VM. replace (-1 * bval x) with (bval (Bopp x)) by (unfold bval; rewrite B2R_Bopp; ring). rewrite (rnd_exact _ (fmt_bval _)). unfold bval. apply B2R_Bopp. }
    destruct I as [FI VI]. split; [exact FI|]. rewrite VI. apply Rabs_le_inv in E. apply Rabs_le. lra. }
  split; [exact N0|]. split; [|split]; apply M; assumption.
Qed.

(* ---- rot2q ---- *)
(** C99.  rot2q of a stored unit axis in binary64, with sin and cos within 2^-52. *)
Theorem C99_rot2q : forall L bdot (hf : v3 b64) k tf d q, libm_ok L (bpow radix2 (-52)) -> unit3 k -> 0 <= d <= 1 / 16 ->
  near d (w0 hf) (vx k) -> near d (w1 hf) (vy k) -> near d (w2 hf) (vz k) -> bfin tf -> Rabs (bval tf) <= 8 ->
  bfin (m_sin L (b_div tf (b_lit 2 1))) -> bfin (m_cos L (b_div tf (b_lit 2 1))) -> rot2q (NdArray k) (bval tf) = Ok q ->
  stored_quat (d + 8 * bpow radix2 (-53)) (g_rot2q (b64_arith L bdot) hf tf) q.
Proof.
  intros L bdot hf k tf d q HL Uk Hd N0 N1 N2 FT BT FS FC E. injection E as <-. change (bpow radix2 (-53)) with uu. pose proof uu_pos as U. pose proof uu_small as US.
  assert (W52 : bpow radix2 (-52) = 2 * uu) by (rewrite uu_val'; cbn; lra). rewrite W52 in HL. destruct HL as [HS HC].
  destruct two_val as [F2 V2]. apply Rabs_le_inv in BT.
  destruct (div_range tf (b_lit 2 1) FT ltac:(rewrite V2; lra)) as [FH VH]; [apply rg_16; rewrite V2; lra|]. rewrite V2 in VH.
  assert (NH : near (0 + (4 + 1 / 100) * uu) (b_div tf (b_lit 2 1)) (bval tf / 2)).
  { eapply near_rnd; [exact FH | exact VH | rewrite Rminus_diag_eq, Rabs_R0 by reflexivity; lra | apply Rabs_le; lra | lra]. }
  set (h := b_div tf (b_lit 2 1)) in *. destruct NH as [_ EH].
  destruct (HS h FS) as [_ ES]. destruct (HC h FC) as [_ EC]. pose proof (sin_lip (bval h) (bval tf / 2)) as LS. pose proof (cos_lip (bval h) (bval tf / 2)) as LC.
  assert (NS : near (602 / 100 * uu) (m_sin L h) (sin (bval tf / 2))).
  { split; [exact FS|]. replace (bval (m_sin L h) - sin (bval tf / 2)) with ((bval (m_sin L h) - sin (bval h)) + (sin (bval h) - sin (bval tf / 2))) by ring. eapply Rle_trans; [apply Rabs_triang|]. lra. }
  assert (NC : near (602 / 100 * uu) (m_cos L h) (cos (bval tf / 2))).
  { split; [exact FC|]. replace (bval (m_cos L h) - cos (bval tf / 2)) with ((bval (m_cos L h) - cos (bval h)) + (cos (bval h) - cos (bval tf / 2))) by ring. eapply Rle_trans; [apply Rabs_triang|]. lra. }
  assert (BS : Rabs (sin (bval tf / 2)) <= 1) by (apply Rabs_le; pose proof (SIN_bound (bval tf / 2)); lra).
  set (s := sin (bval tf / 2)) in *. pose proof (Rabs_pos s) as P.
  destruct (entry_le k) as (K0 & K1 & K2). rewrite (norm_unit k Uk) in *.
  assert (M : forall x v, near d x v -> Rabs v <= 1 -> near (d + 8 * uu) (b_mul x (m_sin L h)) (s * v)).
  { intros x v N B. rewrite (Rmult_comm s v). pose proof (Rabs_pos v) as Pv.
    assert (T1 : Rabs (v * s) <= 1) by (rewrite Rabs_mult; nra). assert (T2 : d * Rabs s <= d) by nra. assert (T3 : uu * Rabs v <= uu) by nra. assert (T4 : d * uu <= 1 / 16 * uu) by nra.
    eapply near_weak; [|apply (near_mul _ _ (11 / 10) _ _ _ _ N NS)]; lra. }
  unfold g_rot2q, stored_quat, qmk, vscale. cbn [y0 y1 y2 y3 q0 q1 q2 q3 vx vy vz ncos nsin nmul ndiv nlit b64_arith]. fold h.
  split; [eapply near_weak; [|exact NC]; lra|]. split; [|split]; apply M; assumption.
Qed.
(** rot2q followed by q2R is rot *)
Theorem C99_rot : forall L bdot (hf : v3 b64) k tf d, In bdot b_dots -> libm_ok L (bpow radix2 (-52)) -> unit3 k -> 0 <= d <= 1 / 32 ->
  near d (w0 hf) (vx k) -> near d (w1 hf) (vy k) -> near d (w2 hf) (vz k) -> bfin tf -> Rabs (bval tf) <= 8 ->
  bfin (m_sin L (b_div tf (b_lit 2 1))) -> bfin (m_cos L (b_div tf (b_lit 2 1))) ->
  stored_matrix (15 / 2 * d + bpow radix2 (-46)) (g_q2R (b64_arith L bdot) (g_rot2q (b64_arith L bdot) hf tf)) (rot k (bval tf)).
Proof.
  intros L bdot hf k tf d HD HL Uk Hd N0 N1 N2 FT BT FS FC. pose proof uu_pos as UP. pose proof uu_small as US. destruct (C10_rot2q k (bval tf) Uk) as (q & E & Uq & Eq).
  pose proof (C99_rot2q L bdot hf k tf d q HL Uk ltac:(lra) N0 N1 N2 FT BT FS FC E) as S. change (bpow radix2 (-53)) with uu in S.
  pose proof (C98_accuracy L bdot _ _ (d + 8 * uu) HD Uq ltac:(lra) S) as R. rewrite Eq in R. change (bpow radix2 (-53)) with uu in R.
  assert (bpow radix2 (-46) = 128 * uu) as -> by (rewrite uu_val'; cbn; lra). eapply stored_weak; [|exact R]. lra.
Qed.

(** Over the reals the programs are the model of ModelRot. *)
Theorem C97_real : forall M q, R2q M = Ok (Fin q) -> g_R2q real_arith (emb_m M) = Ok (emb_q q).
Proof. exact real_R2q. Qed.
Theorem C98_real : forall q, g_q2R real_arith (emb_q q) = emb_m (q2R q).
Proof. exact real_q2R. Qed.
Theorem C99_real : forall q p k t, g_mv4 real_arith (g_quatproduct real_arith (emb_q q)) (emb_q p) = emb_q (m4vec (quatproduct q) p) /\
  g_quatcomplement real_arith (emb_q q) = emb_q (quatcomplement q) /\
  exists r, rot2q (NdArray k) t = Ok r /\ g_rot2q real_arith (emb_v k) t = emb_q r.
Proof.
  intros q p k t. split; [apply real_quatproduct|]. split; [apply real_quatcomplement|]. eexists. split; [apply real_rot2q|]. reflexivity.
Qed.

(* ---- examples ---- *)
Lemma lit_near a b v : bfin (b_lit a b) -> Rabs (bval (b_lit a b) - v) <= bpow radix2 (-53) -> near (bpow radix2 (-53)) (b_lit a b) v.
Proof. intros. split; assumption. Qed.
(** 0.6 and 0.8 are not binary fractions *)
Definition tilt : m3 b64 :=
  W3 (W3 (b_lit 3 5) (b_lit (-4) 5) (b_lit 0 1)) (W3 (b_lit 4 5) (b_lit 3 5) (b_lit 0 1)) (W3 (b_lit 0 1) (b_lit 0 1) (b_lit 1 1)).
Definition tilt_R : mat3 := M3 (3 / 5) (- 4 / 5) 0 (4 / 5) (3 / 5) 0 0 0 1.
Ltac lit := apply lit_near; [reflexivity | apply Rabs_le; vm_compute; lra].
Lemma tilt_ok : is_SO3 tilt_R /\ stored_matrix (bpow radix2 (-53)) tilt tilt_R.
Proof.
  split; [split; [unfold tilt_R; la_unfold; f_equal; field | unfold tilt_R; la_unfold; field]|].
  unfold stored_matrix, tilt, tilt_R. cbn [w0 w1 w2 m00 m01 m02 m10 m11 m12 m20 m21 m22]. split; [|split]; (split; [|split]); lit.
Qed.
(** a half turn about the second axis: the trace is negative *)
Definition flip : m3 b64 :=
  W3 (W3 (b_lit (-1) 1) (b_lit 0 1) (b_lit 0 1)) (W3 (b_lit 0 1) (b_lit 1 1) (b_lit 0 1)) (W3 (b_lit 0 1) (b_lit 0 1) (b_lit (-1) 1)).
Definition flip_R : mat3 := M3 (-1) 0 0 0 1 0 0 0 (-1).
Lemma flip_ok : is_SO3 flip_R /\ stored_matrix (bpow radix2 (-53)) flip flip_R.
Proof.
  split; [split; [unfold flip_R; la_unfold; f_equal; field | unfold flip_R; la_unfold; field]|].
  unfold stored_matrix, flip, flip_R. cbn [w0 w1 w2 m00 m01 m02 m10 m11 m12 m20 m21 m22]. split; [|split]; (split; [|split]); lit.
Qed.
Lemma e53 : 0 <= bpow radix2 (-53) <= 1 / 1024. Proof. cbn. lra. Qed.
Example C97_ex : forall L bdot,
  (exists x q, g_R2q (b64_arith L bdot) tilt = Ok x /\ unit4 q /\ q2R q = tilt_R /\ stored_quat (bpow radix2 (-48)) x q) /\
  (exists x q, g_R2q (b64_arith L bdot) flip = Ok x /\ unit4 q /\ q2R q = flip_R /\ stored_quat (bpow radix2 (-48)) x q).
Proof.
  intros L bdot. pose proof e53 as E. assert (P : 3 * bpow radix2 (-53) + 18 * bpow radix2 (-53) <= bpow radix2 (-48)) by (cbn; lra).
  split; [destruct tilt_ok as [H S] | destruct flip_ok as [H S]]; destruct (C97_accuracy L bdot _ _ (bpow radix2 (-53)) H ltac:(lra) S) as (x & q & E1 & E2 & E3 & E4);
    exists x, q; (split; [exact E1|]); (split; [exact E2|]); (split; [exact E3|]); (eapply stored_quat_weak; [exact P | exact E4]).
Qed.
(** the quaternion (0.6, 0, 0.8, 0) *)
Definition spin : v4 b64 := W4 (b_lit 3 5) (b_lit 0 1) (b_lit 4 5) (b_lit 0 1).
Lemma spin_ok : unit4 (Q4 (3 / 5) 0 (4 / 5) 0) /\ stored_quat (bpow radix2 (-53)) spin (Q4 (3 / 5) 0 (4 / 5) 0).
Proof. split; [unfold unit4, qdot; cbn [q0 q1 q2 q3]; field|]. unfold stored_quat, spin. cbn [y0 y1 y2 y3 q0 q1 q2 q3]. split; [|split; [|split]]; lit. Qed.
Example C98_ex : forall L bdot, In bdot b_dots ->
  stored_matrix (bpow radix2 (-47)) (g_q2R (b64_arith L bdot) spin) (q2R (Q4 (3 / 5) 0 (4 / 5) 0)) /\
  (exists x, g_R2q (b64_arith L bdot) (g_q2R (b64_arith L bdot) spin) = Ok x) /\
  exists x, g_R2q (b64_arith L bdot) tilt = Ok x /\ stored_matrix (bpow radix2 (-44)) (g_q2R (b64_arith L bdot) x) tilt_R.
Proof.
  intros L bdot HD. destruct spin_ok as [U S]. destruct tilt_ok as [T1 T2]. pose proof e53 as E.
  split; [|split].
  - eapply stored_weak; [|apply (C98_accuracy L bdot spin _ (bpow radix2 (-53)) HD U ltac:(lra) S)]. cbn. lra.
  - destruct (C98_back L bdot spin _ (bpow radix2 (-53)) HD U ltac:(lra) S) as (x & X & _). exists x. exact X.
  - destruct (C98_roundtrip L bdot tilt _ (bpow radix2 (-53)) HD T1 ltac:(lra) T2) as (x & X & R). exists x. split; [exact X|]. eapply stored_weak; [|exact R]. cbn. lra.
Qed.
Example C99_ex : forall L bdot, In bdot b_dots -> let A := b64_arith L bdot in
  stored_quat (bpow radix2 (-48)) (g_mv4 A (g_quatproduct A spin) (g_quatcomplement A spin)) qone /\
  stored_matrix (bpow radix2 (-44)) (g_q2R A (g_mv4 A (g_quatproduct A spin) spin)) (mmul (q2R (Q4 (3 / 5) 0 (4 / 5) 0)) (q2R (Q4 (3 / 5) 0 (4 / 5) 0))).
Proof.
  intros L bdot HD A. destruct spin_ok as [U S]. pose proof e53 as E. split.
  - pose proof (C99_complement L bdot spin _ _ S) as S'. pose proof (C99_product L bdot spin _ _ _ (bpow radix2 (-53)) HD U (unit4_conj _ U) ltac:(lra) S S') as R.
    rewrite hamilton_conj_r, U in R. eapply stored_quat_weak; [|exact R]. cbn. lra.
  - eapply stored_weak; [|apply (C99_homomorphism L bdot spin spin _ _ (bpow radix2 (-53)) HD U U ltac:(lra) S S)]. cbn. lra.
Qed.
(** rot2q for one radian about the stored form of (0.6, 0, 0.8) *)
Example C99_rot_ex : forall bdot, In bdot b_dots ->
  stored_matrix (bpow radix2 (-45)) (g_q2R (b64_arith arc_libm bdot) (g_rot2q (b64_arith arc_libm bdot) (W3 (b_lit 3 5) (b_lit 0 1) (b_lit 4 5)) (b_lit 1 1))) (rot (V3 (3 / 5) 0 (4 / 5)) 1).
Proof.
  intros bdot HD. destruct one_val as [F1 V1]. pose proof e53 as E. rewrite <- V1.
  eapply stored_weak; [|apply (C99_rot arc_libm bdot (W3 (b_lit 3 5) (b_lit 0 1) (b_lit 4 5)) (V3 (3 / 5) 0 (4 / 5)) (b_lit 1 1) (bpow radix2 (-53)) HD arc_sincos_ok)].
  - cbn. lra.
  - unfold unit3, LinAlg.dot. cbn [vx vy vz]. field.
  - lra.
  - cbn [w0 vx]. lit.
  - cbn [w1 vy]. lit.
  - cbn [w2 vz]. lit.
  - exact F1.
  - rewrite V1, Rabs_right; lra.
  - change (m_sin arc_libm (b_div (b_lit 1 1) (b_lit 2 1))) with (b_near (sin (bval (b_div (b_lit 1 1) (b_lit 2 1))))). apply b_near_ok. apply Rabs_le. apply SIN_bound.
  - change (m_cos arc_libm (b_div (b_lit 1 1) (b_lit 2 1))) with (b_near (cos (bval (b_div (b_lit 1 1) (b_lit 2 1))))). apply b_near_ok. apply Rabs_le. apply COS_bound.
Qed.
Print Assumptions C97_accuracy.
Print Assumptions C97_real.
Print Assumptions C98_accuracy.
Print Assumptions C98_roundtrip.
Print Assumptions C98_back.
Print Assumptions C98_real.
Print Assumptions C99_product.
Print Assumptions C99_homomorphism.
Print Assumptions C99_complement.
Print Assumptions C99_rot2q.
Print Assumptions C99_rot.
Print Assumptions C99_real.
