(** Property C104: q2rot in binary64. *)
From Coq Require Import Reals ZArith List Bool Lra Lia Psatz.
From Flocq Require Import Core.Core IEEE754.BinarySingleNaN.
From Verif Require Import LinAlg RealAux Py FactsReal FactsLinAlg ModelRot SpecRot FactsRot FactsRot2 FactsNorm ModelFloat ModelFloat4 ModelFloat8 SpecRound FactsRound FactsFloat FactsB64 FactsExact PropPi PropNorm FactsTrack SpecArc SpecArc2 SpecQuat64 SpecRpy FactsAngle FactsSumsq FactsNear PropElbow PropSlerp PropAngle PropR2rot PropRot PropMove PropQuat64 PropRpy.
Import ListNotations.
Open Scope R_scope.
Local Notation near := SpecArc2.near.
Local Notation near_weak := FactsNear.near_weak.
Local Notation near_mul := FactsNear.near_mul.

(* ---- real numbers ---- *)
(** entries of q2R depend on the quaternion with at most this factor *)
Definition close_q (e : R) (p q : quat) : Prop := Rabs (q0 p - q0 q) <= e /\ Rabs (q1 p - q1 q) <= e /\ Rabs (q2 p - q2 q) <= e /\ Rabs (q3 p - q3 q) <= e.
Lemma prod_close e a b a' b' : Rabs (a' - a) <= e -> Rabs (b' - b) <= e -> Rabs (a' * b' - a * b) <= e * (Rabs a + Rabs b) + e * e.
Proof.
  intros A B. assert (E0 : 0 <= e) by (pose proof (Rabs_pos (a' - a)); lra). replace (a' * b' - a * b) with ((a' - a) * b + a * (b' - b) + (a' - a) * (b' - b)) by ring.
  eapply Rle_trans; [apply Rabs_triang|]. apply Rplus_le_compat; [eapply Rle_trans; [apply Rabs_triang|]; rewrite !Rabs_mult|].
  - assert (Rabs (a' - a) * Rabs b <= e * Rabs b) by (apply Rmult_le_compat_r; [apply Rabs_pos | exact A]). assert (Rabs a * Rabs (b' - b) <= Rabs a * e) by (apply Rmult_le_compat_l; [apply Rabs_pos | exact B]). lra.
  - rewrite Rabs_mult. apply Rmult_le_compat; auto using Rabs_pos.
Qed.
Lemma two_prods e a b c d a' b' c' d' (s : bool) : a * a + b * b + c * c + d * d <= 2 -> Rabs (a' - a) <= e -> Rabs (b' - b) <= e -> Rabs (c' - c) <= e -> Rabs (d' - d) <= e -> 0 <= e <= 1 / 100 ->
  Rabs (2 * (a' * b' + (if s then c' * d' else - (c' * d'))) - 2 * (a * b + (if s then c * d else - (c * d)))) <= 6 * e.
Proof.
  intros S A B C D E. pose proof (prod_close e a b a' b' A B) as P1. pose proof (prod_close e c d c' d' C D) as P2.
  assert (Q : Rabs a + Rabs b + Rabs c + Rabs d <= 2829 / 1000).
  { pose proof (Rabs_pos a). pose proof (Rabs_pos b). pose proof (Rabs_pos c). pose proof (Rabs_pos d).
    assert (F : forall x, Rabs x * Rabs x = x * x) by (intros x; rewrite <- Rabs_mult; apply Rabs_right; nra).
    pose proof (F a) as Fa. pose proof (F b) as Fb. pose proof (F c) as Fc. pose proof (F d) as Fd.
    set (x := Rabs a) in *. set (y := Rabs b) in *. set (z := Rabs c) in *. set (w := Rabs d) in *.
    assert (0 <= (x - y) * (x - y) + (x - z) * (x - z) + (x - w) * (x - w) + (y - z) * (y - z) + (y - w) * (y - w) + (z - w) * (z - w)) by (repeat apply Rplus_le_le_0_compat; apply Rle_0_sqr).
    apply Rnot_lt_le. intros L. assert (2829 / 1000 * (2829 / 1000) < (x + y + z + w) * (x + y + z + w)) by (apply Rmult_le_0_lt_compat; lra). lra. }
  assert (EE : e * e <= 1 / 100 * e) by nra.
  assert (EQ : e * (Rabs a + Rabs b) + e * (Rabs c + Rabs d) <= 2829 / 1000 * e).
  { replace (e * (Rabs a + Rabs b) + e * (Rabs c + Rabs d)) with ((Rabs a + Rabs b + Rabs c + Rabs d) * e) by ring. apply Rmult_le_compat_r; lra. }
  apply Rabs_le_inv in P1. apply Rabs_le_inv in P2. apply Rabs_le. destruct s; lra.
Qed.
Lemma q2R_mat a b c d : q2R (Q4 a b c d) = M3
  (1 - 2 * (c * c + d * d)) (2 * (b * c + - (a * d))) (2 * (b * d + a * c))
  (2 * (b * c + a * d)) (1 - 2 * (b * b + d * d)) (2 * (c * d + - (a * b)))
  (2 * (b * d + - (a * c))) (2 * (c * d + a * b)) (1 - 2 * (b * b + c * c)).
Proof. rot_ring. Qed.
Lemma q2R_close e p q : unit4 q -> 0 <= e <= 1 / 100 -> close_q e p q ->
  Rabs (m00 (q2R p) - m00 (q2R q)) <= 6 * e /\ Rabs (m01 (q2R p) - m01 (q2R q)) <= 6 * e /\ Rabs (m02 (q2R p) - m02 (q2R q)) <= 6 * e /\
  Rabs (m10 (q2R p) - m10 (q2R q)) <= 6 * e /\ Rabs (m11 (q2R p) - m11 (q2R q)) <= 6 * e /\ Rabs (m12 (q2R p) - m12 (q2R q)) <= 6 * e /\
  Rabs (m20 (q2R p) - m20 (q2R q)) <= 6 * e /\ Rabs (m21 (q2R p) - m21 (q2R q)) <= 6 * e /\ Rabs (m22 (q2R p) - m22 (q2R q)) <= 6 * e.
Proof.
  intros U E (A & B & C & D). destruct p as [a' b' c' d']. destruct q as [a b c d]. unfold unit4, qdot in U. cbn [q0 q1 q2 q3] in *.
  assert (T : forall x y z w x' y' z' w' s m m', x * x + y * y + z * z + w * w <= 2 -> Rabs (x' - x) <= e -> Rabs (y' - y) <= e -> Rabs (z' - z) <= e -> Rabs (w' - w) <= e ->
    m' - m = 2 * (x' * y' + (if s : bool then z' * w' else - (z' * w'))) - 2 * (x * y + (if s then z * w else - (z * w))) -> Rabs (m' - m) <= 6 * e).
  { intros. rewrite H4. apply two_prods; assumption. }
  assert (T' : forall x y z w x' y' z' w' s m m', x * x + y * y + z * z + w * w <= 2 -> Rabs (x' - x) <= e -> Rabs (y' - y) <= e -> Rabs (z' - z) <= e -> Rabs (w' - w) <= e ->
    - (m' - m) = 2 * (x' * y' + (if s : bool then z' * w' else - (z' * w'))) - 2 * (x * y + (if s then z * w else - (z * w))) -> Rabs (m' - m) <= 6 * e).
  { intros. rewrite <- Rabs_Ropp, H4. apply two_prods; assumption. }
  rewrite !q2R_mat. cbn [m00 m01 m02 m10 m11 m12 m20 m21 m22]. repeat split.
  - apply (T' c c d d c' c' d' d' true); [nra|assumption..|cbn iota; ring].
  - apply (T b c a d b' c' a' d' false); [nra|assumption..|cbn iota; ring].
  - apply (T b d a c b' d' a' c' true); [nra|assumption..|cbn iota; ring].
  - apply (T b c a d b' c' a' d' true); [nra|assumption..|cbn iota; ring].
  - apply (T' b b d d b' b' d' d' true); [nra|assumption..|cbn iota; ring].
  - apply (T c d a b c' d' a' b' false); [nra|assumption..|cbn iota; ring].
  - apply (T b d a c b' d' a' c' false); [nra|assumption..|cbn iota; ring].
  - apply (T c d a b c' d' a' b' true); [nra|assumption..|cbn iota; ring].
  - apply (T' b b c c b' b' c' c' true); [nra|assumption..|cbn iota; ring].
Qed.
(** rot about any vector, also one that is not a unit vector *)
Lemma rot_half k t : rot k t = q2R (qmk (cos (t / 2)) (vscale (sin (t / 2)) k)).
Proof.
  unfold rot. replace t with (2 * (t / 2)) at 1 2 by field. rewrite sin_2a, cos_2a. set (h := t / 2).
  pose proof (sin2_cos2 h) as SC. unfold Rsqr in SC. set (s := sin h) in *. set (c := cos h) in *.
  replace (1 - (c * c - s * s)) with (2 * (s * s)) by lra. destruct k as [x y z].
  unfold qmk, vscale. cbn [vx vy vz]. rewrite q2R_mat. clear SC. clearbody s c. rot_ring.
Qed.

(* ---- the program ---- *)
Section Core.
Context (L : libm) (HL : libm_ok L (bpow radix2 (-52))) (HT : libm_total L) (HA : libm_arc_ok L (bpow radix2 (-50))).
Context (x0 : b64) (c d : R) (Hd : 0 <= d <= bpow radix2 (-46)) (N0 : near d x0 c) (BX : Rabs (bval x0) <= 1).
Let th := b_mul (b_lit 2 1) (m_acos L x0).
Let sf := m_sin L (b_div th (b_lit 2 1)).
Let beta := bval th / 2.
Let alpha := acos (bval x0).
Lemma q_alpha : 0 <= alpha <= PI /\ cos alpha = bval x0 /\ 0 <= sin alpha /\ sin alpha * sin alpha = 1 - bval x0 * bval x0.
Proof.
  pose proof (acos_bound (bval x0)) as B. apply Rabs_le_inv in BX. assert (C : cos alpha = bval x0) by (apply cos_acos; lra).
  split; [exact B|]. split; [exact C|]. split; [apply sin_ge_0; apply B|]. pose proof (sin2_cos2 alpha) as SC. unfold Rsqr in SC. rewrite C in SC. lra.
Qed.
Lemma q_theta : bfin th /\ Rabs (beta - alpha) <= 12 * uu.
Proof.
  destruct two_val as [F2 V2]. pose proof uu_pos as U. pose proof uu_small as US. pose proof pi_hi as PH. destruct (proj2 HA x0 (proj1 N0) BX) as [Fa Ea]. rewrite eight in Ea.
  pose proof (proj1 q_alpha) as AB. fold alpha in Ea.
  assert (Na : near (8 * uu) (m_acos L x0) alpha) by (split; assumption).
  pose proof (near_mul 0 _ (65 / 10) _ _ _ _ (near_exact 0 _ _ (Rle_refl 0) F2 V2) Na) as NM. rewrite (Rabs_mult 2 alpha), (Rabs_right 2), (Rabs_right alpha) in NM by lra.
  destruct (NM ltac:(lra) ltac:(lra)) as [FT ET]. split; [exact FT|]. fold th in ET. unfold beta. apply Rabs_le_inv in ET. apply Rabs_le. lra.
Qed.
Lemma q_sin : near (61 / 10 * uu) sf (sin beta) /\ Rabs (bval sf - sin alpha) <= 181 / 10 * uu /\ near (61 / 10 * uu) (m_cos L (b_div th (b_lit 2 1))) (cos beta) /\ Rabs (cos beta - bval x0) <= 12 * uu.
Proof.
  destruct two_val as [F2 V2]. pose proof uu_pos as U. pose proof uu_small as US. pose proof pi_hi as PH. destruct q_theta as [FT ET]. destruct q_alpha as (AB & CA & _).
  assert (W52 : bpow radix2 (-52) = 2 * uu) by (rewrite uu_val'; cbn; lra). destruct HL as [HS HC]. rewrite W52 in HS, HC.
  pose proof (Rabs_le_inv _ _ ET) as ET'. assert (TR : -1 <= bval th <= 7) by (unfold beta in ET'; lra).
  destruct (div_range th (b_lit 2 1) FT ltac:(rewrite V2; lra)) as [FH VH]; [apply rg_16; rewrite V2; lra|]. rewrite V2 in VH.
  assert (NH : near (0 + (4 + 1 / 100) * uu) (b_div th (b_lit 2 1)) beta).
  { eapply near_rnd; [exact FH | exact VH | unfold beta; rewrite Rminus_diag_eq, Rabs_R0 by reflexivity; lra | apply Rabs_le; lra | lra]. }
  set (h := b_div th (b_lit 2 1)) in *. destruct NH as [_ EH]. destruct (HT h FH) as [FS FC].
  destruct (HS h FS) as [_ ES]. destruct (HC h FC) as [_ EC].
  pose proof (sin_lip (bval h) beta) as LS. pose proof (cos_lip (bval h) beta) as LC. pose proof (sin_lip beta alpha) as LS2. pose proof (cos_lip beta alpha) as LC2. rewrite CA in LC2.
  assert (NS : Rabs (bval (m_sin L h) - sin beta) <= 61 / 10 * uu).
  { replace (bval (m_sin L h) - sin beta) with ((bval (m_sin L h) - sin (bval h)) + (sin (bval h) - sin beta)) by ring. eapply Rle_trans; [apply Rabs_triang|]. lra. }
  split; [split; [exact FS | exact NS]|]. split; [|split; [split; [exact FC|] | lra]].
  - unfold sf. fold h. replace (bval (m_sin L h) - sin alpha) with ((bval (m_sin L h) - sin beta) + (sin beta - sin alpha)) by ring. eapply Rle_trans; [apply Rabs_triang|]. lra.
  - replace (bval (m_cos L h) - cos beta) with ((bval (m_cos L h) - cos (bval h)) + (cos (bval h) - cos beta)) by ring. eapply Rle_trans; [apply Rabs_triang|]. lra.
Qed.
(** one entry of the axis, when the divisor is not too small *)
Lemma q_entry x v : near d x v -> Rabs v <= 1 -> 2 / 10000000 <= bval sf -> Rabs v + d <= 4 * bval sf ->
  bfin (b_div x sf) /\ Rabs (bval (b_div x sf) * bval sf - bval x) <= 42 / 10 * uu * bval sf /\ Rabs (sin beta * bval (b_div x sf) - v) <= d + 30 * uu /\
  near (d + 6 * uu) (b_mul (b_div x sf) sf) v.
Proof.
  intros [Fx Ex] V1 S0 SV. pose proof uu_pos as U. pose proof uu_small as US. destruct q_sin as ([Fs Es] & EA & _). set (s := bval sf) in *.
  assert (S1 : s <= 11 / 10) by (apply Rabs_le_inv in Es; pose proof (SIN_bound beta); lra).
  pose proof (near_size d x v (Rabs v) (conj Fx Ex) (Rle_refl _)) as BXv.
  assert (Q4 : Rabs (bval x / s) <= 4).
  { unfold Rdiv. rewrite Rabs_mult, (Rabs_right (/ s)) by (left; apply Rinv_0_lt_compat; lra). apply Rmult_le_reg_r with s; [lra|]. rewrite Rmult_assoc, Rinv_l by lra. lra. }
  destruct (div_range x sf Fx ltac:(fold s; lra)) as [FD VD]; [fold s; apply rg_16; apply Rabs_le_inv in Q4; lra|]. fold s in VD.
  assert (ND : near (0 + (4 + 1 / 100) * uu) (b_div x sf) (bval x / s)) by (eapply near_rnd; [exact FD | exact VD | rewrite Rminus_diag_eq, Rabs_R0 by reflexivity; lra | exact Q4 | lra]).
  set (k := b_div x sf) in *. destruct ND as [_ EK].
  assert (KS : Rabs (bval k * s - bval x) <= 42 / 10 * uu * s).
  { replace (bval k * s - bval x) with ((bval k - bval x / s) * s) by (field; lra). rewrite Rabs_mult, (Rabs_right s) by lra. apply Rmult_le_compat_r; lra. }
  assert (US1 : uu * s <= 11 / 10 * uu) by (rewrite Rmult_comm; apply Rmult_le_compat_r; lra).
  assert (KB : Rabs (bval k) <= 41 / 10).
  { replace (bval k) with ((bval k - bval x / s) + bval x / s) by ring. eapply Rle_trans; [apply Rabs_triang|]. lra. }
  split; [exact FD|]. split; [exact KS|]. split.
  - replace (sin beta * bval k - v) with ((bval k * s - bval x) + ((bval x - v) + (sin beta - s) * bval k)) by ring.
    eapply Rle_trans; [apply Rabs_triang|]. rewrite Rabs_minus_sym in Es.
    assert (P : Rabs ((sin beta - s) * bval k) <= 61 / 10 * uu * (41 / 10)) by (rewrite Rabs_mult; apply Rmult_le_compat; auto using Rabs_pos).
    pose proof (Rabs_triang (bval x - v) ((sin beta - s) * bval k)) as T. lra.
  - assert (KV : Rabs (bval k * s - v) <= d + 47 / 10 * uu).
    { replace (bval k * s - v) with ((bval k * s - bval x) + (bval x - v)) by ring. eapply Rle_trans; [apply Rabs_triang|]. lra. }
    assert (PK : Rabs (bval k * s) <= 11 / 10).
    { replace (bval k * s) with ((bval k * s - v) + v) by ring. eapply Rle_trans; [apply Rabs_triang|]. assert (d <= 1 / 100) by (assert (bpow radix2 (-46) <= 1 / 100) by (cbn; lra); lra). lra. }
    destruct (mul_range k sf FD Fs) as [F V]; [apply rg_16; fold s; apply Rabs_le_inv in PK; lra|]. fold s in V.
    eapply near_weak; [|eapply near_rnd; [exact F | exact V | exact KV | exact PK | lra]]. lra.
Qed.
End Core.

Lemma sq_pos_le a b : 0 <= b -> a * a <= b * b -> a <= b.
Proof. intros B H. apply Rnot_lt_le. intros C. assert (b * b < a * a) by (apply Rmult_le_0_lt_compat; lra). lra. Qed.
Lemma p46 : bpow radix2 (-46) = 128 * uu. Proof. rewrite uu_val'. cbn. lra. Qed.
Lemma p20 : bpow radix2 (-20) = 1 / 1048576. Proof. cbn. lra. Qed.
Section Stored.
Context (L : libm) (bdot : list b64 -> list b64 -> b64) (HL : libm_ok L (bpow radix2 (-52))) (HT : libm_total L) (HA : libm_arc_ok L (bpow radix2 (-50))).
Context (x : v4 b64) (q : quat) (d : R) (Uq : unit4 q) (Hd : 0 <= d <= bpow radix2 (-46)) (SQ : stored_quat d x q).
Let s := norm (qvec q).
Let X := bval (y0 x).
Let alpha := acos X.
Let th := b_mul (b_lit 2 1) (m_acos L (y0 x)).
Let sf := m_sin L (b_div th (b_lit 2 1)).
Let beta := bval th / 2.
Lemma st_len : 0 <= s <= 1 /\ s * s = 1 - q0 q * q0 q /\ Rabs (q0 q) <= 1 /\ Rabs (q1 q) <= s /\ Rabs (q2 q) <= s /\ Rabs (q3 q) <= s.
Proof.
  assert (S0 : 0 <= s) by apply norm_nonneg. assert (SS : s * s = q1 q * q1 q + q2 q * q2 q + q3 q * q3 q) by (unfold s; rewrite norm_sq; unfold LinAlg.dot, qvec; cbn [vx vy vz]; ring).
  unfold unit4, qdot in Uq. assert (E : s * s = 1 - q0 q * q0 q) by lra.
  pose proof (Rle_0_sqr (q0 q)) as Q0. pose proof (Rle_0_sqr (q1 q)) as Q1. pose proof (Rle_0_sqr (q2 q)) as Q2. pose proof (Rle_0_sqr (q3 q)) as Q3. unfold Rsqr in *.
  assert (F : forall a, Rabs a * Rabs a = a * a) by (intros a; rewrite <- Rabs_mult; apply Rabs_right; pose proof (Rle_0_sqr a) as Z; unfold Rsqr in Z; lra).
  split; [split; [exact S0|]; apply sq_pos_le; lra|]. split; [exact E|]. split; [|split; [|split]]; apply sq_pos_le; try rewrite F; lra.
Qed.
Lemma st_sq : Rabs X <= 1 -> Rabs (X * X - q0 q * q0 q) <= 2 * d.
Proof.
  intros BX. destruct st_len as (_ & _ & Q1 & _). destruct SQ as ([_ E] & _). fold X in E. replace (X * X - q0 q * q0 q) with ((X - q0 q) * (X + q0 q)) by ring.
  rewrite Rabs_mult. assert (Rabs (X + q0 q) <= 2) by (eapply Rle_trans; [apply Rabs_triang|]; lra). rewrite (Rmult_comm 2 d). apply Rmult_le_compat; auto using Rabs_pos.
Qed.
Lemma st_in : bpow radix2 (-20) <= s -> Rabs X <= 1.
Proof.
  rewrite p20. intros S. destruct st_len as (S0 & SS & Q1 & _). destruct SQ as ([_ E] & _). fold X in E. rewrite p46 in Hd. pose proof uu_val' as UV. 
  assert (1 / 1048576 * (1 / 1048576) <= s * s) by (apply Rmult_le_compat; lra).
  assert (Q : Rabs (q0 q) <= 1 - 4 / 10000000000000).
  { apply sq_pos_le; [lra|]. rewrite <- Rabs_mult, Rabs_right by (pose proof (Rle_0_sqr (q0 q)) as Z; unfold Rsqr in Z; lra). lra. }
  replace X with ((X - q0 q) + q0 q) by ring. eapply Rle_trans; [apply Rabs_triang|]. lra.
Qed.
(** away from the identity *)
Lemma st_far : bpow radix2 (-20) <= s -> 98 / 100 * s <= sin alpha /\ Rabs (sin alpha - s) * s <= 102 / 100 * d /\ 97 / 100 * s <= bval sf /\ 97 / 100 * s <= beta.
Proof.
  intros S. pose proof (st_in S) as BX. pose proof (st_sq BX) as E2. rewrite p20 in S. destruct st_len as (S0 & SS & Q1 & _). pose proof (proj1 SQ) as N0.
  destruct (q_alpha (y0 x) BX) as (AB & CA & SA & SA2). fold X in AB, CA, SA, SA2. fold alpha in AB, CA, SA, SA2.
  destruct (q_theta L HA (y0 x) (q0 q) d N0 BX) as [FT ET]. fold th X in ET. fold alpha beta in ET.
  destruct (q_sin L HL HT HA (y0 x) (q0 q) d N0 BX) as (_ & ES & _). fold th X in ES. fold alpha sf in ES.
  pose proof uu_val' as UV. pose proof uu_pos as U. assert (D := Hd). rewrite p46 in D.
  assert (SM : 1 / 1048576 * (1 / 1048576) <= s * s) by (apply Rmult_le_compat; lra). apply Rabs_le_inv in E2.
  assert (D1 : d <= 1 / 64 * (s * s)) by lra.
  assert (A1 : 98 / 100 * s <= sin alpha).
  { apply sq_pos_le; [exact SA|]. rewrite SA2. replace (98 / 100 * s * (98 / 100 * s)) with (9604 / 10000 * (s * s)) by field. lra. }
  split; [exact A1|]. split.
  - assert (P : Rabs (sin alpha - s) * (sin alpha + s) <= 2 * d).
    { rewrite <- (Rabs_right (sin alpha + s)) by lra. rewrite <- Rabs_mult. replace ((sin alpha - s) * (sin alpha + s)) with (sin alpha * sin alpha - s * s) by ring. rewrite SA2, SS. apply Rabs_le. lra. }
    assert (Q : Rabs (sin alpha - s) * (198 / 100 * s) <= Rabs (sin alpha - s) * (sin alpha + s)) by (apply Rmult_le_compat_l; [apply Rabs_pos | lra]).
    replace (Rabs (sin alpha - s) * (198 / 100 * s)) with (198 / 100 * (Rabs (sin alpha - s) * s)) in Q by ring. lra.
  - apply Rabs_le_inv in ES. apply Rabs_le_inv in ET. assert (sin alpha <= alpha) by (apply sin_le_x; lra). split; lra.
Qed.
(** the branch taken *)
Lemma st_branch : Rabs X <= 1 -> b_lt (Babs th) (b_lit 1 1000000) = true -> bval th < 101 / 100000000.
Proof.
  intros BX H. destruct (q_theta L HA (y0 x) (q0 q) d (proj1 SQ) BX) as [FT _]. fold th in FT. apply b_lt_val in H; [|unfold bfin; rewrite is_finite_Babs; exact FT | reflexivity].
  assert (VA : bval (Babs th) = Rabs (bval th)) by (unfold bval; apply B2R_Babs). rewrite VA in H. assert (bval (b_lit 1 1000000) <= 101 / 100000000) by (vm_compute; lra).
  pose proof (Rle_abs (bval th)). lra.
Qed.
Lemma st_branch2 : Rabs X <= 1 -> b_lt (Babs th) (b_lit 1 1000000) = false -> 99 / 100000000 <= bval th.
Proof.
  intros BX H. destruct (q_theta L HA (y0 x) (q0 q) d (proj1 SQ) BX) as [FT ET]. fold th in FT, ET. apply Rnot_lt_le. intros C. apply Bool.not_true_iff_false in H. apply H.
  apply b_lt_val; [unfold bfin; rewrite is_finite_Babs; exact FT | reflexivity|]. assert (VA : bval (Babs th) = Rabs (bval th)) by (unfold bval; apply B2R_Babs). rewrite VA.
  assert (99 / 100000000 <= bval (b_lit 1 1000000)) by (vm_compute; lra). pose proof uu_val' as UV. destruct (q_alpha (y0 x) BX) as (AB & _). apply Rabs_le_inv in ET.
  apply Rabs_def1; lra.
Qed.
Lemma st_near : Rabs X <= 1 -> 0 <= q0 q -> s <= bpow radix2 (-20) -> 0 <= alpha <= 11 / 10.
Proof.
  intros BX Q0 S. rewrite p20 in S. destruct st_len as (S0 & SS & _). destruct SQ as ([_ E] & _). fold X in E. apply Rabs_le_inv in E. pose proof uu_val' as UV. assert (D := Hd). rewrite p46 in D.
  assert (SM : s * s <= 1 / 1048576 * (1 / 1048576)) by (apply Rmult_le_compat; lra).
  assert (Q : 9 / 10 <= q0 q) by (apply sq_pos_le; lra).
  destruct (q_alpha (y0 x) BX) as (AB & CA & _). fold X in AB, CA. fold alpha in AB, CA. split; [lra|]. pose proof pi_hi as PH. apply Rnot_lt_le. intros C.
  assert (cos alpha <= cos (PI / 3)) by (apply cos_decr_1; lra). rewrite cos_PI3 in H. lra.
Qed.
(** the middle case and the far case together *)
Lemma st_else : Rabs X <= 1 -> 0 <= q0 q \/ bpow radix2 (-20) <= s -> b_lt (Babs th) (b_lit 1 1000000) = false -> 2 / 10000000 <= bval sf /\ s + d <= 4 * bval sf.
Proof.
  intros BX C H. pose proof (st_branch2 BX H) as B. pose proof uu_val' as UV. assert (D := Hd). rewrite p46 in D. pose proof p20 as P.
  destruct (Rle_lt_dec (bpow radix2 (-20)) s) as [S|S].
  - destruct (st_far S) as (_ & _ & F & _). lra.
  - destruct C as [C|C]; [|lra]. destruct (st_near BX C ltac:(lra)) as [A0 A1].
    destruct (q_theta L HA (y0 x) (q0 q) d (proj1 SQ) BX) as [FT ET]. fold th X in ET. fold alpha beta in ET. apply Rabs_le_inv in ET.
    destruct (q_sin L HL HT HA (y0 x) (q0 q) d (proj1 SQ) BX) as (_ & ES & _). fold th X in ES. fold alpha sf in ES. apply Rabs_le_inv in ES.
    pose proof (sin_lb3 alpha ltac:(lra)) as SL. unfold beta in ET. lra.
Qed.
Lemma st_then : Rabs X <= 1 -> 0 <= q0 q \/ bpow radix2 (-20) <= s -> b_lt (Babs th) (b_lit 1 1000000) = true -> s <= 6 / 10000000.
Proof.
  intros BX C H. pose proof (st_branch BX H) as B. pose proof uu_val' as UV. assert (D := Hd). rewrite p46 in D. pose proof p20 as P.
  destruct (Rle_lt_dec (bpow radix2 (-20)) s) as [S|S].
  - destruct (st_far S) as (_ & _ & _ & F). unfold beta in F. lra.
  - destruct C as [C|C]; [|lra]. destruct (st_near BX C ltac:(lra)) as [A0 A1]. destruct (q_alpha (y0 x) BX) as (AB & CA & SA & SA2). fold X in AB, CA, SA, SA2. fold alpha in AB, CA, SA, SA2.
    destruct (q_theta L HA (y0 x) (q0 q) d (proj1 SQ) BX) as [FT ET]. fold th X in ET. fold alpha beta in ET. apply Rabs_le_inv in ET. unfold beta in ET.
    assert (sin alpha <= alpha) by (apply sin_le_x; lra). assert (SB : sin alpha * sin alpha <= 506 / 1000000000 * (506 / 1000000000)) by (apply Rmult_le_compat; lra).
    pose proof (st_sq BX) as E2. apply Rabs_le_inv in E2. destruct st_len as (S0 & SS & _). apply sq_pos_le; lra.
Qed.
Let r := g_q2rot (b64_arith L bdot) x.
Lemma st_run : r = if b_lt (Babs th) (b_lit 1 1000000) then (W3 (nzero (b64_arith L bdot)) (nzero (b64_arith L bdot)) (none1 (b64_arith L bdot)), nzero (b64_arith L bdot)) else (W3 (b_div (y1 x) sf) (b_div (y2 x) sf) (b_div (y3 x) sf), th).
Proof. reflexivity. Qed.
Lemma st_result : Rabs X <= 1 -> 0 <= q0 q \/ bpow radix2 (-20) <= s ->
  @SpecRound.vfin (b64_arith L bdot) bfin (fst r) /\ bfin (snd r) /\
  (@SpecRound.vval (b64_arith L bdot) bval (fst r) = ez /\ bval (snd r) = 0 /\ s <= 6 / 10000000 \/
   mat_close (6 * d + bpow radix2 (-45)) (rot (@SpecRound.vval (b64_arith L bdot) bval (fst r)) (bval (snd r))) (q2R q) /\ stored_quat (d + bpow radix2 (-48)) (g_rot2q (b64_arith L bdot) (fst r) (snd r)) q).
Proof.
  intros BX C. rewrite st_run. destruct (b_lt (Babs th) (b_lit 1 1000000)) eqn:H.
  - pose proof (st_then BX C H). split; [repeat split|]. split; [reflexivity|]. left. split; [|split; [vm_compute; lra | assumption]].
    unfold SpecRound.vval, ez. cbn [fst w0 w1 w2]. f_equal; vm_compute; lra.
  - destruct (st_else BX C H) as [S1 S2]. destruct st_len as (S0 & SS & Q0 & V1 & V2 & V3'). pose proof uu_pos as U. pose proof uu_val' as UV. assert (D := Hd). rewrite p46 in D. destruct SQ as (N0 & N1 & N2 & N3).
    destruct (q_entry L HL HT HA (y0 x) (q0 q) d Hd N0 BX (y1 x) (q1 q) N1 ltac:(lra) S1 ltac:(fold th; fold sf; lra)) as (F1 & _ & E1 & B1). fold th in F1, E1, B1. fold sf beta in F1, E1, B1.
    destruct (q_entry L HL HT HA (y0 x) (q0 q) d Hd N0 BX (y2 x) (q2 q) N2 ltac:(lra) S1 ltac:(fold th; fold sf; lra)) as (F2 & _ & E2 & B2). fold th in F2, E2, B2. fold sf beta in F2, E2, B2.
    destruct (q_entry L HL HT HA (y0 x) (q0 q) d Hd N0 BX (y3 x) (q3 q) N3 ltac:(lra) S1 ltac:(fold th; fold sf; lra)) as (F3 & _ & E3 & B3). fold th in F3, E3, B3. fold sf beta in F3, E3, B3.
    destruct (q_sin L HL HT HA (y0 x) (q0 q) d N0 BX) as (_ & _ & [FC EC] & EX). fold th X in FC, EC, EX. fold beta in EC, EX.
    destruct (q_theta L HA (y0 x) (q0 q) d N0 BX) as [FT _]. fold th in FT.
    assert (CX : Rabs (cos beta - q0 q) <= d + 12 * uu).
    { destruct N0 as [_ E0]. fold X in E0. replace (cos beta - q0 q) with ((cos beta - X) + (X - q0 q)) by ring. eapply Rle_trans; [apply Rabs_triang|]. lra. }
    cbn [fst snd]. split; [split; [exact F1|]; split; assumption|]. split; [exact FT|]. right. split.
    + rewrite rot_half. fold beta. assert (P45 : 180 * uu <= bpow radix2 (-45)) by (rewrite UV; cbn; lra).
      assert (CQ : close_q (d + 30 * uu) (qmk (cos beta) (vscale (sin beta) (@SpecRound.vval (b64_arith L bdot) bval (W3 (b_div (y1 x) sf) (b_div (y2 x) sf) (b_div (y3 x) sf))))) q).
      { unfold close_q, qmk, vscale, SpecRound.vval. cbn [q0 q1 q2 q3 vx vy vz w0 w1 w2]. split; [lra|]. split; [exact E1|]. split; assumption. }
      pose proof (q2R_close (d + 30 * uu) _ q Uq ltac:(lra) CQ) as (M0 & M1 & M2 & M3' & M4 & M5 & M6 & M7 & M8).
      assert (LE : 6 * (d + 30 * uu) <= 6 * d + bpow radix2 (-45)) by lra.
      unfold mat_close. repeat split; (eapply Rle_trans; [eassumption | exact LE]).
    + assert (P48 : 32 * uu <= bpow radix2 (-48)) by (rewrite UV; cbn; lra).
      split; [|split; [|split]].
      * cbn [y0 g_rot2q]. change (near (d + bpow radix2 (-48)) (m_cos L (b_div th (b_lit 2 1))) (q0 q)). split; [exact FC|].
        replace (bval (m_cos L (b_div th (b_lit 2 1))) - q0 q) with ((bval (m_cos L (b_div th (b_lit 2 1))) - cos beta) + (cos beta - q0 q)) by ring. eapply Rle_trans; [apply Rabs_triang|]. lra.
      * eapply near_weak; [|exact B1]. lra.
      * eapply near_weak; [|exact B2]. lra.
      * eapply near_weak; [|exact B3]. lra.
Qed.
Lemma st_axis_entry y v : near d y v -> Rabs v <= s -> bpow radix2 (-20) <= s -> bfin (b_div y sf) /\ Rabs (bval (b_div y sf) - v / s) * (s * s) <= 3 * d + 32 * uu.
Proof.
  intros N V S. destruct (st_far S) as (A1 & A2 & A3 & A4). pose proof (st_in S) as BX. rewrite p20 in S. destruct st_len as (S0 & SS & _). pose proof uu_pos as U. pose proof uu_val' as UV. assert (D := Hd). rewrite p46 in D.
  destruct (q_entry L HL HT HA (y0 x) (q0 q) d Hd (proj1 SQ) BX y v N ltac:(lra) ltac:(fold th; fold sf; lra) ltac:(fold th; fold sf; lra)) as (F & K & _). fold th in F, K. fold sf in F, K.
  split; [exact F|]. destruct (q_sin L HL HT HA (y0 x) (q0 q) d (proj1 SQ) BX) as (_ & ES & _). fold th X in ES. fold alpha sf in ES.
  set (k := bval (b_div y sf)) in *. set (g := bval sf) in *. destruct N as [_ EN].
  assert (G : Rabs (s - g) * s <= 102 / 100 * d + 181 / 10 * uu).
  { replace (s - g) with (- (sin alpha - s) + - (g - sin alpha)) by ring.
    assert (T : Rabs (- (sin alpha - s) + - (g - sin alpha)) * s <= (Rabs (sin alpha - s) + Rabs (g - sin alpha)) * s) by (apply Rmult_le_compat_r; [lra|]; eapply Rle_trans; [apply Rabs_triang|]; rewrite !Rabs_Ropp; lra).
    assert (Rabs (g - sin alpha) * s <= 181 / 10 * uu * 1) by (apply Rmult_le_compat; auto using Rabs_pos; lra). rewrite Rmult_plus_distr_r in T. lra. }
  (* times g *)
  assert (I : (k - v / s) * g = (k * g - bval y) + ((bval y - v) + v / s * (s - g))) by (field; lra).
  assert (VS : Rabs (v / s) <= 1).
  { unfold Rdiv. rewrite Rabs_mult, (Rabs_right (/ s)) by (left; apply Rinv_0_lt_compat; lra). apply Rmult_le_reg_r with s; [lra|]. rewrite Rmult_assoc, Rinv_l by lra. lra. }
  assert (B : Rabs (k - v / s) * g * s <= 42 / 10 * uu * g * s + (d * s + (102 / 100 * d + 181 / 10 * uu))).
  { rewrite <- (Rabs_right g) at 1 by lra. rewrite <- Rabs_mult, I.
    assert (P : Rabs (v / s * (s - g)) <= Rabs (s - g)) by (rewrite Rabs_mult; pose proof (Rabs_pos (s - g)) as Z; assert (Rabs (v / s) * Rabs (s - g) <= 1 * Rabs (s - g)) by (apply Rmult_le_compat_r; assumption); lra).
    assert (T : Rabs (k * g - bval y + (bval y - v + v / s * (s - g))) * s <= (42 / 10 * uu * g + (d + Rabs (s - g))) * s).
    { apply Rmult_le_compat_r; [lra|]. eapply Rle_trans; [apply Rabs_triang|]. pose proof (Rabs_triang (bval y - v) (v / s * (s - g))). lra. }
    rewrite !Rmult_plus_distr_r in T. lra. }
  assert (G1 : g <= 11 / 10) by (apply Rabs_le_inv in ES; pose proof (SIN_bound alpha); lra).
  assert (DS : d * s <= d * 1) by (apply Rmult_le_compat_l; lra).
  assert (GS : g * s <= 11 / 10 * 1) by (apply Rmult_le_compat; lra). assert (UG : uu * (g * s) <= uu * (11 / 10)) by (apply Rmult_le_compat_l; lra).
  assert (W : Rabs (k - v / s) * (s * s) * (97 / 100) <= Rabs (k - v / s) * g * s).
  { replace (Rabs (k - v / s) * (s * s) * (97 / 100)) with (Rabs (k - v / s) * s * (97 / 100 * s)) by ring. replace (Rabs (k - v / s) * g * s) with (Rabs (k - v / s) * s * g) by ring.
    apply Rmult_le_compat_l; [|exact A3]. apply Rmult_le_pos; [apply Rabs_pos | lra]. }
  replace (42 / 10 * uu * g * s) with (42 / 10 * (uu * (g * s))) in B by ring. lra.
Qed.
Lemma st_angle : bpow radix2 (-20) <= s -> Rabs (bval th - 2 * acos (q0 q)) * s <= 4 * d + 32 * uu.
Proof.
  intros S. destruct (st_far S) as (A1 & A2 & A3 & A4). pose proof (st_in S) as BX. rewrite p20 in S. destruct st_len as (S0 & SS & Q0 & _). pose proof uu_pos as U. pose proof uu_val' as UV. assert (D := Hd). rewrite p46 in D.
  destruct (q_alpha (y0 x) BX) as (AB & CA & SA & _). fold X in AB, CA, SA. fold alpha in AB, CA, SA. pose proof (acos_bound (q0 q)) as GB. set (g := acos (q0 q)) in *. apply Rabs_le_inv in Q0.
  assert (CG : cos g = q0 q) by (apply cos_acos; lra). assert (SG : sin g = s).
  { assert (0 <= sin g) by (apply sin_ge_0; lra). pose proof (sin2_cos2 g) as SC. unfold Rsqr in SC. rewrite CG in SC. apply Rle_antisym; apply sq_pos_le; lra. }
  set (e := 102 / 100 * d / s). assert (ES : e * s = 102 / 100 * d) by (unfold e; field; lra).
  assert (E0 : 0 <= e) by (unfold e; apply Rmult_le_pos; [lra | left; apply Rinv_0_lt_compat; lra]).
  assert (E1 : e <= 1 / 10) by (apply Rmult_le_reg_r with s; lra).
  assert (DE : d <= e) by (apply Rmult_le_reg_r with s; [lra|]; rewrite ES; assert (d * s <= d * 1) by (apply Rmult_le_compat_l; lra); lra).
  assert (SE : Rabs (sin alpha - s) <= e) by (apply Rmult_le_reg_r with s; lra).
  destruct SQ as ([_ EX] & _). fold X in EX.
  pose proof (angle_close alpha g e AB GB (conj E0 E1) ltac:(rewrite SG; exact SE) ltac:(rewrite CA, CG; lra)) as AC.
  destruct (q_theta L HA (y0 x) (q0 q) d (proj1 SQ) BX) as [FT ET]. fold th X in ET. fold alpha beta in ET. unfold beta in ET.
  assert (T : Rabs (bval th - 2 * g) <= 24 * uu + 36 / 10 * e) by (apply Rabs_le_inv in ET; apply Rabs_le_inv in AC; apply Rabs_le; lra).
  assert (T2 : Rabs (bval th - 2 * g) * s <= (24 * uu + 36 / 10 * e) * s) by (apply Rmult_le_compat_r; lra).
  assert (uu * s <= uu * 1) by (apply Rmult_le_compat_l; lra). replace ((24 * uu + 36 / 10 * e) * s) with (24 * (uu * s) + 36 / 10 * (e * s)) in T2 by ring. rewrite ES in T2. lra.
Qed.
End Stored.

(* ---- the theorems ---- *)
(** C104.  q2rot of a stored unit quaternion in binary64.  The axis may be inaccurate when it is
    computed from a small vector part, but the turn by the returned angle about the returned axis is
    the rotation of the quaternion; angles below 1e-6 are read as no rotation. *)
Theorem C104_rotation : forall L bdot (x : v4 b64) q d, libm_ok L (bpow radix2 (-52)) -> libm_total L -> libm_arc_ok L (bpow radix2 (-50)) ->
  unit4 q -> 0 <= d <= bpow radix2 (-46) -> stored_quat d x q -> Rabs (bval (y0 x)) <= 1 -> 0 <= q0 q \/ bpow radix2 (-20) <= norm (qvec q) ->
  let A := b64_arith L bdot in let r := g_q2rot A x in
  @SpecRound.vfin A bfin (fst r) /\ bfin (snd r) /\
  (@SpecRound.vval A bval (fst r) = ez /\ bval (snd r) = 0 /\ norm (qvec q) <= 6 / 10000000 \/
   mat_close (6 * d + bpow radix2 (-45)) (rot (@SpecRound.vval A bval (fst r)) (bval (snd r))) (q2R q)).
Proof.
  intros L bdot x q d HL HT HA Uq Hd SQ BX C A r. destruct (st_result L bdot HL HT HA x q d Uq Hd SQ BX C) as (F1 & F2 & [E|[E _]]); split; auto.
Qed.
(** rot2q takes the result back to the quaternion *)
Theorem C104_back : forall L bdot (x : v4 b64) q d, libm_ok L (bpow radix2 (-52)) -> libm_total L -> libm_arc_ok L (bpow radix2 (-50)) ->
  unit4 q -> 0 <= d <= bpow radix2 (-46) -> stored_quat d x q -> Rabs (bval (y0 x)) <= 1 ->
  0 <= q0 q /\ 6 / 10000000 < norm (qvec q) \/ bpow radix2 (-20) <= norm (qvec q) ->
  let A := b64_arith L bdot in let r := g_q2rot A x in
  stored_quat (d + bpow radix2 (-48)) (g_rot2q A (fst r) (snd r)) q.
Proof.
  intros L bdot x q d HL HT HA Uq Hd SQ BX C A r. destruct (st_result L bdot HL HT HA x q d Uq Hd SQ BX ltac:(tauto)) as (F1 & F2 & [(_ & _ & E)|[_ E]]); [|exact E].
  exfalso. pose proof p20. destruct C as [[_ C]|C]; lra.
Qed.
(** the accuracy of the axis and of the angle themselves *)
Theorem C104_axis : forall L bdot (x : v4 b64) q d, libm_ok L (bpow radix2 (-52)) -> libm_total L -> libm_arc_ok L (bpow radix2 (-50)) ->
  unit4 q -> 0 <= d <= bpow radix2 (-46) -> stored_quat d x q -> bpow radix2 (-20) <= norm (qvec q) ->
  let r := g_q2rot (b64_arith L bdot) x in let s := norm (qvec q) in
  near ((3 * d + bpow radix2 (-48)) / (s * s)) (w0 (fst r)) (q1 q / s) /\ near ((3 * d + bpow radix2 (-48)) / (s * s)) (w1 (fst r)) (q2 q / s) /\
  near ((3 * d + bpow radix2 (-48)) / (s * s)) (w2 (fst r)) (q3 q / s) /\ near ((4 * d + bpow radix2 (-48)) / s) (snd r) (2 * acos (q0 q)).
Proof.
  intros L bdot x q d HL HT HA Uq Hd SQ S r s. assert (P48 : bpow radix2 (-48) = 32 * uu) by (rewrite uu_val'; cbn; lra).
  pose proof (st_in x q d Uq Hd SQ S) as BX. destruct (st_far L HL HT HA x q d Uq Hd SQ S) as (_ & _ & _ & FB). pose proof p20 as P20. pose proof uu_val' as UV.
  pose proof (st_run L bdot x) as RUN. fold r in RUN.
  destruct (b_lt (Babs (b_mul (b_lit 2 1) (m_acos L (y0 x)))) (b_lit 1 1000000)) eqn:H.
  { exfalso. pose proof (st_branch L HA x q d SQ BX H) as B. lra. }
  destruct (st_len q Uq) as (S0 & SS & Q0 & V1 & V2 & V3'). fold s in S, S0, SS, V1, V2, V3', FB.
  pose proof (st_angle L HL HT HA x q d Uq Hd SQ S) as EA. fold s in EA.
  destruct SQ as (N0 & N1 & N2 & N3). pose proof (conj N0 (conj N1 (conj N2 N3))) as SQ. fold (stored_quat d x q) in SQ.
  destruct (st_axis_entry L HL HT HA x q d Uq Hd SQ _ _ N1 V1 S) as [F1 E1]. destruct (st_axis_entry L HL HT HA x q d Uq Hd SQ _ _ N2 V2 S) as [F2 E2]. destruct (st_axis_entry L HL HT HA x q d Uq Hd SQ _ _ N3 V3' S) as [F3 E3]. fold s in E1, E2, E3.
  destruct (q_theta L HA (y0 x) (q0 q) d N0 BX) as [FT _].
  rewrite RUN. cbn [fst snd w0 w1 w2]. rewrite P48. assert (SP : 0 < s) by lra.
  assert (SSP : 0 < s * s) by (apply Rmult_lt_0_compat; exact SP).
  assert (DV : forall e a b, 0 < b -> a * b <= e -> a <= e / b) by (intros e a b B I; apply Rmult_le_reg_r with b; [exact B|]; unfold Rdiv; rewrite Rmult_assoc, Rinv_l by lra; lra).
  (split; [|split; [|split]]); (split; [assumption | apply DV; assumption]).
Qed.

(* ---- what fails ---- *)
Definition turned : v4 b64 := W4 (b_lit 115 277) (b_lit 252 277) (b_lit 0 1) (b_lit 0 1).
Definition turned_R : quat := Q4 (115 / 277) (252 / 277) 0 0.
(** the orientation of a stored quaternion relative to itself *)
Definition self_rel L bdot (x : v4 b64) : v4 b64 := g_mv4 (b64_arith L bdot) (g_quatproduct (b64_arith L bdot) (g_quatcomplement (b64_arith L bdot) x)) x.
Lemma self_libm L L' bdot x : self_rel L bdot x = self_rel L' bdot x.
Proof. unfold self_rel, g_mv4, g_quatproduct, g_quatcomplement, g_I3, g_hat, v3zip. cbn [ndot nmul nadd nneg b64_arith y0 y1 y2 y3 w0 w1 w2]. reflexivity. Qed.
Lemma self_above L bdot : In bdot b_dots -> b_lt (b_lit 1 1) (y0 (self_rel L bdot turned)) = true.
Proof.
  intros H. rewrite (self_libm L table_libm). cbn [In b_dots] in H. repeat (destruct H as [<- | H]; [vm_compute; reflexivity|]). contradiction.
Qed.
Lemma self_fin L bdot : In bdot b_dots -> bfin (y0 (self_rel L bdot turned)).
Proof.
  intros H. rewrite (self_libm L table_libm). cbn [In b_dots] in H. repeat (destruct H as [<- | H]; [vm_compute; reflexivity|]). contradiction.
Qed.
Lemma turned_ok : stored_quat (bpow radix2 (-53)) turned turned_R /\ unit4 turned_R.
Proof.
  split; [|unfold unit4, qdot, turned_R; cbn [q0 q1 q2 q3]; field].
  split; [|split; [|split]]; (split; [reflexivity|]); cbn [turned turned_R y0 y1 y2 y3 q0 q1 q2 q3]; (replace (bval (b_lit 0 1)) with 0 by (vm_compute; lra) || idtac); apply Rabs_le; vm_compute; lra.
Qed.
(** The orientation of a stored quaternion relative to itself can have a scalar part just above 1, in
    every order of summation; its arc cosine is not a number, and so is the angle of q2rot. *)
Theorem C104_nan_refuted : exists (x : v4 b64) q, stored_quat (bpow radix2 (-53)) x q /\ unit4 q /\
  forall L bdot, In bdot b_dots -> (forall y, bfin y -> 1 < bval y -> ~ bfin (m_acos L y)) ->
    let z := g_mv4 (b64_arith L bdot) (g_quatproduct (b64_arith L bdot) (g_quatcomplement (b64_arith L bdot) x)) x in
    stored_quat (20 * bpow radix2 (-53)) z qone /\ ~ bfin (snd (g_q2rot (b64_arith L bdot) z)).
Proof.
  exists turned, turned_R. destruct turned_ok as [ST UT]. split; [exact ST|]. split; [exact UT|]. intros L bdot HD HN z. pose proof uu_pos as U. pose proof uu_small as US.
  assert (B : 1 < bval (y0 z)). { destruct PropElbow.one_val as [F1 V1]. rewrite <- V1. apply b_lt_val; [exact F1 | exact (self_fin L bdot HD) | exact (self_above L bdot HD)]. }
  split.
  - assert (SC : stored_quat (bpow radix2 (-53)) (g_quatcomplement (b64_arith L bdot) turned) (qconj turned_R)) by exact (C99_complement L bdot turned turned_R _ ST).
    pose proof (unit4_conj _ UT) as UC.
    pose proof (C99_product L bdot _ _ _ _ (bpow radix2 (-53)) HD UC UT ltac:(change (bpow radix2 (-53)) with uu; lra) SC ST) as P. change (bpow radix2 (-53)) with uu in *.
    assert (Q : hamilton (qconj turned_R) turned_R = qone) by (rewrite hamilton_conj_l; unfold unit4 in UT; rewrite UT; reflexivity).
    rewrite Q in P. destruct P as (P0 & P1 & P2 & P3). split; [|split; [|split]]; (eapply near_weak; [|eassumption]); lra.
  - pose proof (HN (y0 z) (self_fin L bdot HD) B) as NF. intros F. apply NF.
    change (bfin (snd (if b_lt (Babs (b_mul (b_lit 2 1) (m_acos L (y0 z)))) (b_lit 1 1000000) then (W3 (nzero (b64_arith L bdot)) (nzero (b64_arith L bdot)) (none1 (b64_arith L bdot)), nzero (b64_arith L bdot))
      else (W3 (b_div (y1 z) (m_sin L (b_div (b_mul (b_lit 2 1) (m_acos L (y0 z))) (b_lit 2 1)))) (b_div (y2 z) (m_sin L (b_div (b_mul (b_lit 2 1) (m_acos L (y0 z))) (b_lit 2 1)))) (b_div (y3 z) (m_sin L (b_div (b_mul (b_lit 2 1) (m_acos L (y0 z))) (b_lit 2 1)))), b_mul (b_lit 2 1) (m_acos L (y0 z)))))) in F.
    generalize dependent (m_acos L (y0 z)). clear. intros a NF F. destruct a as [s|s| |s m e Hb]; try reflexivity; exfalso; destruct s || idtac; vm_compute in F; discriminate F.
Qed.
(** The axis returned for a stored unit quaternion close to minus one is no unit vector. *)
Lemma div_fin x y : bfin x -> bval x <> 0 -> bfin (b_div x y) -> bfin y -> bval y <> 0 /\ bval (b_div x y) = rnd (bval x / bval y).
Proof.
  intros Fx Nx Fd Fy. assert (N : bval y <> 0).
  { intros Z. destruct y as [s|s| |s m e Hb]; try discriminate Fy.
    - destruct x as [s'|s'| |s' m' e' Hb']; try discriminate Fx; [apply Nx; reflexivity|]. vm_compute in Fd. discriminate Fd.
    - unfold bval, B2R in Z. apply eq_0_F2R in Z. cbn in Z. destruct s; discriminate Z. }
  split; [exact N|]. pose proof (Bdiv_correct 53 1024 prec64 emax64 mode_NE x y N) as C. cbv zeta in C. change (round radix2 _ _ _) with (rnd (bval x / bval y)) in C.
  destruct (Rlt_bool _ _); [apply C|]. destruct (overflow_not_finite _ _ C Fd).
Qed.
Definition flipped : v4 b64 := W4 (b_lit (-1) 1) (b_lit 1 100000000) (b_lit 0 1) (b_lit 0 1).
Theorem C104_axis_refuted : exists (x : v4 b64) q, unit4 q /\ stored_quat (bpow radix2 (-53)) x q /\ Rabs (bval (y0 x)) <= 1 /\
  forall L bdot, libm_ok L (bpow radix2 (-52)) -> libm_total L -> libm_arc_ok L (bpow radix2 (-50)) ->
    let k := w0 (fst (g_q2rot (b64_arith L bdot) x)) in ~ bfin k \/ 1000000 <= Rabs (bval k).
Proof.
  set (v := bval (b_lit 1 100000000)). assert (V : 99 / 10000000000 <= v <= 101 / 10000000000) by (unfold v; split; vm_compute; lra).
  assert (VV : 0 <= v * v <= 103 / 1000000000000000000) by (split; nra).
  set (c := sqrt (1 - v * v)). assert (CC : c * c = 1 - v * v) by (apply sqrt_sqrt; lra). assert (C0 : 0 <= c) by apply sqrt_pos.
  assert (X0 : bval (b_lit (-1) 1) = -1) by (vm_compute; lra).
  assert (CB : 1 - uu <= c <= 1). { pose proof uu_val' as UV. split; apply sq_pos_le; try lra. rewrite CC. rewrite UV. lra. }
  assert (ST : stored_quat (bpow radix2 (-53)) flipped (Q4 (- c) v 0 0)).
  { change (bpow radix2 (-53)) with uu. destruct zero_val as [F0 V0]. unfold flipped, stored_quat. cbn [y0 y1 y2 y3 q0 q1 q2 q3]. pose proof uu_pos as U.
    split; [split; [reflexivity | rewrite X0; apply Rabs_le; lra]|]. split; [split; [reflexivity | fold v; rewrite Rminus_diag_eq, Rabs_R0 by reflexivity; lra]|].
    split; (split; [exact F0 | rewrite V0, Rminus_0_r, Rabs_R0; lra]). }
  assert (BX : Rabs (bval (y0 flipped)) <= 1) by (cbn [y0 flipped]; rewrite X0; apply Rabs_le; lra).
  exists flipped, (Q4 (- c) v 0 0). split; [unfold unit4, qdot; cbn [q0 q1 q2 q3]; lra|]. split; [exact ST|]. split; [exact BX|].
  intros L bdot HL HT HA k.
  assert (Hd : 0 <= bpow radix2 (-53) <= bpow radix2 (-46)) by (split; [apply bpow_ge_0 | apply bpow_le; lia]).
  destruct (q_sin L HL HT HA (y0 flipped) _ _ (proj1 ST) BX) as ([Fs _] & ES & _). destruct (q_theta L HA (y0 flipped) _ _ (proj1 ST) BX) as [FT ET].
  replace (acos (bval (y0 flipped))) with PI in ES, ET by (cbn [y0 flipped]; rewrite X0; symmetry; exact acos_m1). rewrite sin_PI in ES.
  pose proof (st_run L bdot flipped) as RUN. set (th := b_mul (b_lit 2 1) (m_acos L (y0 flipped))) in *. set (sf := m_sin L (b_div th (b_lit 2 1))) in *.
  assert (NB : b_lt (Babs th) (b_lit 1 1000000) = false).
  { apply Bool.not_true_iff_false. intros H. pose proof (st_branch L HA flipped _ _ ST BX H) as B. fold th in B. pose proof uu_val' as UV. pose proof pi_lo as PL. apply Rabs_le_inv in ET. lra. }
  rewrite NB in RUN. unfold k. rewrite RUN. cbn [fst w0]. change (y1 flipped) with (b_lit 1 100000000).
  destruct (is_finite (b_div (b_lit 1 100000000) sf)) eqn:FD; [right | left; unfold bfin; intros Z; exact (eq_true_false_abs _ Z FD)].
  destruct (div_fin (b_lit 1 100000000) sf eq_refl ltac:(fold v; lra) FD Fs) as [N E]. rewrite E. fold v. set (g := bval sf) in *. rewrite Rminus_0_r in ES. pose proof uu_val' as UV.
  assert (GP : 0 < Rabs g) by (apply Rabs_pos_lt; exact N).
  assert (Q : 4000000 <= Rabs (v / g)).
  { unfold Rdiv. rewrite Rabs_mult, Rabs_inv, (Rabs_right v) by lra. apply Rmult_le_reg_r with (Rabs g); [exact GP|]. rewrite Rmult_assoc, Rinv_l by lra. lra. }
  pose proof (rnd_err (v / g)) as RE. pose proof ee_le_uu as EU. rewrite Rabs_minus_sym in RE. pose proof (Rabs_triang_inv (v / g) (rnd (v / g))) as TI.
  assert (uu * Rabs (v / g) <= 1 / 10 * Rabs (v / g)) by (apply Rmult_le_compat_r; [apply Rabs_pos | lra]). lra.
Qed.

(** Over the reals the program is the model of ModelRot. *)
Theorem C104_reals : forall q k t, q2rot q = Fin (k, t) -> g_q2rot real_arith (emb_q q) = (emb_v k, t).
Proof.
  intros q k t. unfold q2rot. destruct (Rltb (q0 q) (-1) || Rltb 1 (q0 q))%bool; [discriminate|]. unfold g_q2rot. rewrite real_two, real_lit0, real_lit1. replace (nlit real_arith 1 1000000) with (1 / 1000000) by reflexivity.
  cbn [y0 y1 y2 y3 emb_q nmul ndiv nacos nabs nlt nsin real_arith]. destruct (Rltb (Rabs (2 * acos (q0 q))) (1 / 1000000)); [injection 1 as <- <-; reflexivity|].
  destruct (Reqb _ _); [discriminate|]. injection 1 as <- <-. reflexivity.
Qed.

(* ---- examples ---- *)
Lemma len_turned : norm (qvec turned_R) = 252 / 277.
Proof. unfold norm, norm2, qvec, turned_R, LinAlg.dot. cbn [vx vy vz q1 q2 q3]. replace (252 / 277 * (252 / 277) + 0 * 0 + 0 * 0) with (252 / 277 * (252 / 277)) by field. apply sqrt_square. lra. Qed.
Example C104_rotation_ex : libm_ok arc_libm (bpow radix2 (-52)) /\ libm_total arc_libm /\ libm_arc_ok arc_libm (bpow radix2 (-50)) /\ unit4 turned_R /\
  0 <= bpow radix2 (-53) <= bpow radix2 (-46) /\ stored_quat (bpow radix2 (-53)) turned turned_R /\ Rabs (bval (y0 turned)) <= 1 /\ 0 <= q0 turned_R /\ bpow radix2 (-20) <= norm (qvec turned_R) /\
  forall bdot, let r := g_q2rot (b64_arith arc_libm bdot) turned in
  mat_close (bpow radix2 (-44)) (rot (@SpecRound.vval (b64_arith arc_libm bdot) bval (fst r)) (bval (snd r))) (q2R turned_R) /\
  Rabs (bval (w0 (fst r)) - 1) <= bpow radix2 (-47).
Proof.
  destruct turned_ok as [ST UT]. assert (Hd : 0 <= bpow radix2 (-53) <= bpow radix2 (-46)) by (split; [apply bpow_ge_0 | apply bpow_le; lia]).
  assert (SL : bpow radix2 (-20) <= norm (qvec turned_R)) by (rewrite len_turned, p20; lra). pose proof (st_in turned turned_R _ UT Hd ST SL) as BX.
  repeat (split; [first [exact arc_sincos_ok | exact arc_total | exact arc_libm_ok | exact UT | exact Hd | exact ST | exact BX | exact SL | cbn [q0 turned_R]; lra]|]).
  intros bdot r. pose proof uu_val' as UV. assert (E44 : bpow radix2 (-44) = 512 * uu) by (rewrite UV; cbn; lra). assert (E45 : bpow radix2 (-45) = 256 * uu) by (rewrite UV; cbn; lra). assert (E53 : bpow radix2 (-53) = uu) by reflexivity.
  split.
  - destruct (C104_rotation arc_libm bdot turned turned_R _ arc_sincos_ok arc_total arc_libm_ok UT Hd ST BX (or_intror SL)) as (_ & _ & [(_ & _ & E)|E]); [rewrite len_turned in E; lra|].
    fold r in E. assert (LE : 6 * bpow radix2 (-53) + bpow radix2 (-45) <= bpow radix2 (-44)) by (rewrite E44, E45, E53; lra).
    destruct E as (M0 & M1 & M2 & M3' & M4 & M5 & M6 & M7 & M8). unfold mat_close. repeat split; (eapply Rle_trans; [eassumption | exact LE]).
  - destruct (C104_axis arc_libm bdot turned turned_R _ arc_sincos_ok arc_total arc_libm_ok UT Hd ST SL) as ((_ & E) & _). fold r in E. rewrite len_turned in E.
    replace (q1 turned_R / (252 / 277)) with 1 in E by (cbn [q1 turned_R]; field). eapply Rle_trans; [exact E|].
    assert (E48 : bpow radix2 (-48) = 32 * uu) by (rewrite UV; cbn; lra). assert (E47 : bpow radix2 (-47) = 64 * uu) by (rewrite UV; cbn; lra). rewrite E48, E47, E53.
    replace ((3 * uu + 32 * uu) / (252 / 277 * (252 / 277))) with (35 * (277 * 277) / (252 * 252) * uu) by field. pose proof uu_pos. lra.
Qed.
Example C104_back_ex : forall bdot, let A := b64_arith arc_libm bdot in let r := g_q2rot A turned in stored_quat (bpow radix2 (-47)) (g_rot2q A (fst r) (snd r)) turned_R.
Proof.
  intros bdot A r. destruct C104_rotation_ex as (_ & _ & _ & UT & Hd & ST & BX & _ & SL & _).
  destruct (C104_back arc_libm bdot turned turned_R _ arc_sincos_ok arc_total arc_libm_ok UT Hd ST BX (or_intror SL)) as (P0 & P1 & P2 & P3). fold A in P0, P1, P2, P3. fold r in P0, P1, P2, P3.
  assert (LE : bpow radix2 (-53) + bpow radix2 (-48) <= bpow radix2 (-47)) by (cbn; lra).
  split; [|split; [|split]]; (eapply near_weak; [exact LE | assumption]).
Qed.
(** the correctly rounded library refuses arguments above 1 *)
Example C104_nan_ex : forall y, bfin y -> 1 < bval y -> ~ bfin (m_acos arc_libm y).
Proof.
  intros y F B. cbn [m_acos arc_libm near_libm]. unfold bfin in F. rewrite F. cbn [andb]. assert (Rleb (Rabs (bval y)) 1 = false) as -> by (apply Rleb_false; rewrite Rabs_right; lra). discriminate.
Qed.
Example C104_reals_ex : exists k t, q2rot (Q4 0 (3 / 5) 0 (4 / 5)) = Fin (k, t) /\ t = PI.
Proof.
  unfold q2rot. cbn [q0]. rewrite !Rltb_ge by lra. cbn [orb]. rewrite acos_0. pose proof pi_lo. rewrite Rltb_ge by (rewrite Rabs_right; lra). replace (2 * (PI / 2) / 2) with (PI / 2) by field. rewrite sin_PI2, (proj2 (Reqb_false 1 0)) by lra.
  do 2 eexists. split; [reflexivity | field].
Qed.
Print Assumptions C104_rotation.
Print Assumptions C104_back.
Print Assumptions C104_axis.
Print Assumptions C104_nan_refuted.
Print Assumptions C104_axis_refuted.
Print Assumptions C104_reals.
