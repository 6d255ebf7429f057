(** Property C119: hat, invhat, screw_matrix and quatjacobian in binary64. *)
From Coq Require Import Reals ZArith List Bool Lra Lia Psatz.
From Flocq Require Import Core.Core IEEE754.BinarySingleNaN.
From Verif Require Import LinAlg RealAux FactsReal FactsLinAlg ModelRot SpecRot FactsRot ModelFloat ModelFloat4 ModelFloat15 SpecRound FactsRound FactsB64 FactsExact FactsTrack FactsScrew64 PropRot.
Import ListNotations.
Open Scope R_scope.

(* ---- what the arrays stand for ---- *)
Definition vec_of (r : v3 b64) : vec3 := V3 (bval (w0 r)) (bval (w1 r)) (bval (w2 r)).
Definition quat_of (q : v4 b64) : quat := Q4 (bval (y0 q)) (bval (y1 q)) (bval (y2 q)) (bval (y3 q)).
Definition list3 (v : vec3) : list R := [vx v; vy v; vz v].
Definition rows3 (M : mat3) : list (list R) := [[m00 M; m01 M; m02 M]; [m10 M; m11 M; m12 M]; [m20 M; m21 M; m22 M]].
Definition rows6 (M : mat6) : list (list R) := map (fun p => fst p ++ snd p) (combine (rows3 (b00 M)) (rows3 (b01 M)) ++ combine (rows3 (b10 M)) (rows3 (b11 M))).
(** every entry a finite number, with the values given *)
Definition holds6 (M : list (list b64)) (V : list (list R)) : Prop := Forall2 (Forall2 isv) M V.
Definition fin3 (r : v3 b64) : Prop := bfin (w0 r) /\ bfin (w1 r) /\ bfin (w2 r).
Definition upto (c : R) (r : v3 b64) : Prop := Rabs (bval (w0 r)) <= c /\ Rabs (bval (w1 r)) <= c /\ Rabs (bval (w2 r)) <= c.
Definition fl_sum (a b : vec3) : vec3 := V3 (rnd (vx a + vx b)) (rnd (vy a + vy b)) (rnd (vz a + vz b)).

Lemma zero_isv : isv (b_lit 0 1) 0. Proof. split; [reflexivity|]. vm_compute. lra. Qed.
Lemma one_isv : isv (b_lit 1 1) 1. Proof. split; [reflexivity|]. vm_compute. lra. Qed.
Lemma opp_isv x : bfin x -> isv (Bopp x) (- bval x).
Proof. intros F. split; [unfold bfin in *; rewrite is_finite_Bopp; exact F|apply B2R_Bopp]. Qed.
Lemma self_isv x : bfin x -> isv x (bval x). Proof. intros F. split; [exact F|reflexivity]. Qed.
Lemma isv_eq x v w : isv x v -> v = w -> isv x w. Proof. intros H <-. exact H. Qed.

Lemma holds_vals M V : holds6 M V -> map (map bval) M = V.
Proof. induction 1 as [|r v M V H _ IH]; [reflexivity|]. cbn [map]. rewrite IH. f_equal. clear -H. induction H as [|x y r v [_ E] _ IH]; [reflexivity|]. cbn [map]. rewrite E, IH. reflexivity. Qed.

(* ---- hat and invhat ---- *)
(** invhat gives back the very vector that hat was given, NaN, infinities and signed zeros included *)
Theorem C119_invhat : forall L dot k,
  (forall x, In x [w0 k; w1 k; w2 k] -> bfin x -> Rabs (bval x) < bpow radix2 1023) ->
  g_invhat (b64_arith L dot) (g_hat (b64_arith L dot) k) = k.
Proof.
  intros L dot [a b c] H. unfold g_invhat, g_hat, v3map. cbn [w0 w1 w2 b64_arith nadd nsub ndiv nneg nlit]. rewrite !Bopp_involutive, sub_opp.
  rewrite !double_half; [reflexivity|..]; apply H; cbn; tauto.
Qed.
(** without the bound it is wrong: the sum of two entries overflows *)
Theorem C119_invhat_refuted : exists k, fin3 k /\ forall L dot, w0 (g_invhat (b64_arith L dot) (g_hat (b64_arith L dot) k)) = B754_infinity false.
Proof. exists (W3 (b_ofZ (2 ^ 1023)) b_zero b_zero). split; [repeat split; vm_compute; reflexivity|]. intros L dot. vm_compute. reflexivity. Qed.

(* ---- screw_matrix ---- *)
Theorem C119_screw : forall L dot r, fin3 r -> holds6 (g_screw (b64_arith L dot) r) (rows6 (screw_matrix (vec_of r))).
Proof.
  intros L dot [a b c] (Fa & Fb & Fc). cbn [w0 w1 w2] in *. cbn.
  repeat (apply Forall2_cons || apply Forall2_nil); first [exact zero_isv|exact one_isv|apply opp_isv; assumption|apply self_isv; assumption].
Qed.
Lemma one_cap : Rabs (bval (b_lit 1 1)) <= cap.
Proof. rewrite (proj2 one_isv), Rabs_R1. change 1 with (bpow radix2 0). apply bpow_le. lia. Qed.
Lemma a_tag n s x y : term n s x y -> term (fst (n, s)) (snd (n, s)) x y. Proof. exact (fun H => H). Qed.
Lemma fin_opp x : bfin x -> bfin (Bopp x). Proof. intros F. apply (opp_isv x F). Qed.
Lemma abs_opp x c : Rabs (bval x) <= c -> Rabs (bval (Bopp x)) <= c. Proof. unfold bval. rewrite B2R_Bopp, Rabs_Ropp. exact (fun H => H). Qed.
Ltac a_term := first
  [ apply term_0l; [reflexivity|exact (proj2 zero_isv)|solve [assumption|reflexivity|apply fin_opp; assumption]]
  | apply term_0r; [solve [assumption|reflexivity|apply fin_opp; assumption]|reflexivity|exact (proj2 zero_isv)]
  | apply term_1l; [reflexivity|exact (proj2 one_isv)|solve [assumption|reflexivity|apply fin_opp; assumption]|solve [assumption|exact one_cap|apply abs_opp; assumption]]
  | apply term_1r; [solve [assumption|reflexivity|apply fin_opp; assumption]|reflexivity|exact (proj2 one_isv)|solve [assumption|exact one_cap|apply abs_opp; assumption]] ].
Lemma bval_opp x : bval (Bopp x) = - bval x. Proof. apply B2R_Bopp. Qed.
Lemma rnd_1 : rnd 1 = 1. Proof. rewrite <- (proj2 one_isv). apply rnd_exact, fmt_bval. Qed.
Lemma rnd_opp v : rnd (- v) = - rnd v. Proof. apply round_NE_opp. Qed.
Lemma dot_isv dot x y ts v : In dot b_dots -> length (combine x y) = 6%nat -> tagged (combine x y) ts -> (count ts <= 2)%nat -> rnd (total ts) = v -> isv (dot x y) v.
Proof. intros HD L6 HT C E. destruct (dot_part dot x y ts HD L6 HT C) as (F & V & _). split; [exact F|]. rewrite V. exact E. Qed.
Ltac an_entry HD := eapply dot_isv;
  [ exact HD | reflexivity
  | cbn [combine]; repeat (apply Forall2_cons; [cbn [fst snd]; eapply a_tag; a_term|]); apply Forall2_nil
  | cbn; lia
  | cbn [total fold_right snd]; rewrite ?bval_opp, ?(proj2 one_isv) ].
(** the product of two screw matrices is the screw matrix of the rounded sum, in every order of summation *)
Theorem C119_screw_product : forall L dot a b, In dot b_dots -> fin3 a -> fin3 b -> upto cap a -> upto cap b ->
  holds6 (g_mm6 (b64_arith L dot) (g_screw (b64_arith L dot) a) (g_screw (b64_arith L dot) b)) (rows6 (screw_matrix (fl_sum (vec_of a) (vec_of b)))).
Proof.
  intros L dot [a0 a1 a2] [b0 b1 b2] HD (Fa & Fb & Fc) (Ga & Gb & Gc) (Ba & Bb & Bc) (Da & Db & Dc). cbn [w0 w1 w2] in *.
  cbn [g_mm6 g_T6 g_screw map seq nth g_hat w0 w1 w2 b64_arith nzero none1 nneg nlit ndot rows6 rows3 screw_matrix hat fl_sum vec_of vx vy vz combine app fst snd
       b00 b01 b10 b11 m00 m01 m02 m10 m11 m12 m20 m21 m22 I3 mzero].
  repeat (apply Forall2_cons || apply Forall2_nil).
  all: an_entry HD.
  all: first [ match goal with |- rnd ?s = 0 => replace s with 0 by ring end; apply rnd_0
             | match goal with |- rnd ?s = 1 => replace s with 1 by ring end; apply rnd_1
             | match goal with |- rnd ?s = - rnd ?t => replace s with (- t) by ring end; apply rnd_opp
             | match goal with |- rnd ?s = rnd ?t => replace s with t by ring end; reflexivity ].
Qed.
(** so it has the values of the screw matrix of the sum that the code computes *)
Theorem C119_screw_sum : forall L dot a b, In dot b_dots -> fin3 a -> fin3 b -> upto cap a -> upto cap b ->
  map (map bval) (g_mm6 (b64_arith L dot) (g_screw (b64_arith L dot) a) (g_screw (b64_arith L dot) b)) = map (map bval) (g_screw (b64_arith L dot) (g_vadd (b64_arith L dot) a b)).
Proof.
  intros L dot a b HD Fa Fb Ba Bb. set (A := b64_arith L dot). assert (S : fin3 (g_vadd A a b) /\ vec_of (g_vadd A a b) = fl_sum (vec_of a) (vec_of b)).
  { assert (K : forall x y, bfin x -> bfin y -> Rabs (bval x) <= cap -> Rabs (bval y) <= cap -> isv (b_add x y) (rnd (bval x + bval y))).
    { intros x y Fx Fy Bx By. apply add_range; [exact Fx|exact Fy|]. apply in_range. apply Rle_trans with (bpow radix2 999); [|apply bpow_le; lia]. apply (small_sum 2); [lia|]. cbn [INR]. eapply Rle_trans; [apply Rabs_triang|lra]. }
    destruct a as [a0 a1 a2], b as [b0 b1 b2], Fa as (?&?&?), Fb as (?&?&?), Ba as (?&?&?), Bb as (?&?&?). cbn [w0 w1 w2] in *.
    destruct (K a0 b0) as [F0 V0]; try assumption. destruct (K a1 b1) as [F1 V1]; try assumption. destruct (K a2 b2) as [F2 V2]; try assumption.
    split; [repeat split; assumption|]. unfold vec_of, fl_sum. cbn. rewrite <- V0, <- V1, <- V2. reflexivity. }
  destruct S as [FS VS]. pose proof (C119_screw_product L dot a b HD Fa Fb Ba Bb) as P. pose proof (C119_screw L dot _ FS) as Q. fold A in P, Q. rewrite VS in Q. rewrite (holds_vals _ _ P), (holds_vals _ _ Q). reflexivity.
Qed.
(** screw matrices of opposite displacements are inverse exactly *)
Theorem C119_screw_inverse : forall L dot a, In dot b_dots -> fin3 a -> upto cap a ->
  holds6 (g_mm6 (b64_arith L dot) (g_screw (b64_arith L dot) a) (g_screw (b64_arith L dot) (v3map Bopp a))) (rows6 I6).
Proof.
  intros L dot a HD Fa Ba. assert (FO : fin3 (v3map Bopp a)) by (destruct Fa as (?&?&?); repeat split; apply fin_opp; assumption). assert (BO : upto cap (v3map Bopp a)) by (destruct Ba as (?&?&?); repeat split; apply abs_opp; assumption).
  pose proof (C119_screw_product L dot a _ HD Fa FO Ba BO) as P. replace (rows6 I6) with (rows6 (screw_matrix (fl_sum (vec_of a) (vec_of (v3map Bopp a))))); [exact P|].
  unfold fl_sum, vec_of. cbn [v3map w0 w1 w2 vx vy vz]. rewrite !bval_opp, !Rplus_opp_r, rnd_0. cbn. rewrite Ropp_0. reflexivity.
Qed.

(** invhat of any matrix, antisymmetric or not *)
Lemma half_of p s : isv p (rnd s) -> Rabs s <= bpow radix2 999 -> bfin (b_div p (b_lit 2 1)) /\ Rabs (bval (b_div p (b_lit 2 1)) - s / 2) <= 3 * uu * Rabs (s / 2) + 3 * ee.
Proof.
  intros [F V] B. assert (V2 : bval (b_lit 2 1) = 2) by (vm_compute; lra). assert (BP : Rabs (rnd s) <= bpow radix2 999) by (apply rnd_abs_le; [lia|exact B]).
  assert (H2 : forall y, Rabs (y / 2) = Rabs y / 2) by (intros y; unfold Rdiv; rewrite Rabs_mult, (Rabs_right (/ 2)) by lra; reflexivity).
  destruct (div_range p (b_lit 2 1) F ltac:(rewrite V2; lra)) as [FD VD].
  { rewrite V, V2. apply in_range. rewrite H2. pose proof (Rabs_pos (rnd s)). apply Rle_trans with (bpow radix2 999); [lra|apply bpow_le; lia]. }
  split; [exact FD|]. rewrite VD, V, V2. pose proof (rnd_err s) as E1. pose proof (rnd_err (rnd s / 2)) as E2. rewrite H2 in E2. rewrite H2.
  pose proof uu_pos. pose proof uu_small. pose proof ee_pos. pose proof (Rabs_pos s).
  assert (T : Rabs (rnd s) <= Rabs s + (uu * Rabs s + ee)) by (replace (rnd s) with (s + (rnd s - s)) by ring; eapply Rle_trans; [apply Rabs_triang|lra]).
  assert (U : uu * (Rabs (rnd s) / 2) <= uu * ((Rabs s + (uu * Rabs s + ee)) / 2)) by (apply Rmult_le_compat_l; lra).
  assert (UU : uu * (uu * Rabs s) <= 1 / 1000000 * (uu * Rabs s)) by (apply Rmult_le_compat_r; nra). assert (UE : uu * ee <= 1 / 1000000 * ee) by (apply Rmult_le_compat_r; lra).
  assert (D : Rabs (rnd s / 2 - s / 2) <= (uu * Rabs s + ee) / 2) by (replace (rnd s / 2 - s / 2) with ((rnd s - s) / 2) by field; rewrite H2; lra).
  replace (rnd (rnd s / 2) - s / 2) with ((rnd (rnd s / 2) - rnd s / 2) + (rnd s / 2 - s / 2)) by ring. eapply Rle_trans; [apply Rabs_triang|]. assert (0 <= uu * Rabs s) by nra. lra.
Qed.
Definition mat_of (K : v3 (v3 b64)) : mat3 :=
  M3 (bval (w0 (w0 K))) (bval (w1 (w0 K))) (bval (w2 (w0 K))) (bval (w0 (w1 K))) (bval (w1 (w1 K))) (bval (w2 (w1 K))) (bval (w0 (w2 K))) (bval (w1 (w2 K))) (bval (w2 (w2 K))).
Theorem C119_invhat_near : forall L dot K, (forall r, In r [w0 K; w1 K; w2 K] -> fin3 r /\ upto cap r) ->
  let out := g_invhat (b64_arith L dot) K in let v := invhat (mat_of K) in
  fin3 out /\ Rabs (bval (w0 out) - vx v) <= 3 * uu * Rabs (vx v) + 3 * ee /\ Rabs (bval (w1 out) - vy v) <= 3 * uu * Rabs (vy v) + 3 * ee /\ Rabs (bval (w2 out) - vz v) <= 3 * uu * Rabs (vz v) + 3 * ee.
Proof.
  intros L dot [[a b c] [d e f] [g h i]] H out v. destruct (H (W3 a b c)) as [(Fa & Fb & Fc) (Ba & Bb & Bc)]; [cbn; tauto|]. destruct (H (W3 d e f)) as [(Fd & Fe & Ff) (Bd & Be & Bf)]; [cbn; tauto|]. destruct (H (W3 g h i)) as [(Fg & Fh & Fi) (Bg & Bh & Bi)]; [cbn; tauto|]. clear H. cbn [w0 w1 w2] in *.
  assert (S2 : forall s, Rabs s <= 2 * cap -> Rabs s <= bpow radix2 999) by (intros s Hs; apply (small_sum 2); [lia|exact Hs]).
  assert (AD : forall x y, bfin x -> bfin y -> Rabs (bval x) <= cap -> Rabs (bval y) <= cap -> bfin (b_div (b_add (Bopp x) y) (b_lit 2 1)) /\ Rabs (bval (b_div (b_add (Bopp x) y) (b_lit 2 1)) - (- bval x + bval y) / 2) <= 3 * uu * Rabs ((- bval x + bval y) / 2) + 3 * ee).
  { intros x y Fx Fy Bx By. assert (B : Rabs (- bval x + bval y) <= bpow radix2 999) by (apply S2; eapply Rle_trans; [apply Rabs_triang|]; rewrite Rabs_Ropp; lra). apply half_of; [|exact B]. rewrite <- bval_opp. apply add_range; [apply fin_opp, Fx|exact Fy|]. rewrite bval_opp. apply in_range. apply Rle_trans with (1 := B). apply bpow_le. lia. }
  assert (SB : bfin (b_div (b_sub c g) (b_lit 2 1)) /\ Rabs (bval (b_div (b_sub c g) (b_lit 2 1)) - (bval c - bval g) / 2) <= 3 * uu * Rabs ((bval c - bval g) / 2) + 3 * ee).
  { assert (B : Rabs (bval c - bval g) <= bpow radix2 999) by (apply S2; unfold Rminus; eapply Rle_trans; [apply Rabs_triang|]; rewrite Rabs_Ropp; lra). apply half_of; [|exact B]. apply sub_range; [exact Fc|exact Fg|]. apply in_range. apply Rle_trans with (1 := B). apply bpow_le. lia. }
  destruct (AD f h Ff Fh Bf Bh) as [G0 E0]. destruct SB as [G1 E1]. destruct (AD b d Fb Fd Bb Bd) as [G2 E2].
  split; [split; [exact G0|split; [exact G1|exact G2]]|]. split; [exact E0|split; [exact E1|exact E2]].
Qed.

(* ---- wrenches and twists ---- *)
Definition flat3 (v : v3 b64) : list b64 := [w0 v; w1 v; w2 v].
(** what the errors are measured by: each component of t + a x b with absolute values throughout *)
Definition sizes (t a b : vec3) : vec3 :=
  V3 (Rabs (vx t) + Rabs (vz a * vy b) + Rabs (vy a * vz b)) (Rabs (vy t) + Rabs (vz a * vx b) + Rabs (vx a * vz b)) (Rabs (vz t) + Rabs (vy a * vx b) + Rabs (vx a * vy b)).
(** three computed numbers against a vector of the reals *)
Definition close3 (l : list b64) (v size : vec3) : Prop :=
  match l with
  | [x; y; z] => Rabs (bval x - vx v) <= 13 * uu * vx size + 20 * ee /\ Rabs (bval y - vy v) <= 13 * uu * vy size + 20 * ee /\ Rabs (bval z - vz v) <= 13 * uu * vz size + 20 * ee
  | _ => False
  end.
Lemma row_close dot x y v w : In dot b_dots -> length (combine x y) = 6%nat -> bfin (dot x y) -> dot_pairs (combine x y) = v -> abs_pairs (combine x y) = w -> Rabs (bval (dot x y) - v) <= 13 * uu * w + 20 * ee.
Proof. intros HD L6 F <- <-. exact (proj2 (dot6 dot x y HD L6 F)). Qed.
Ltac abs_tidy := repeat first [rewrite bval_opp|rewrite (proj2 one_isv)|rewrite (proj2 zero_isv)|rewrite Rmult_0_l|rewrite Rmult_0_r|rewrite Rmult_1_l|rewrite Rmult_1_r|rewrite Ropp_mult_distr_l_reverse|rewrite Rabs_Ropp|rewrite Rabs_R0].
Ltac a_row HD := apply row_close; [exact HD|reflexivity|assumption|cbn [combine dot_pairs fold_right fst snd]; abs_tidy; ring|cbn [combine abs_pairs fold_right fst snd]; abs_tidy; ring].
(** the wrench moved by screw_matrix: torque t + r x f to rounding, the force untouched *)
Theorem C119_wrench : forall L dot r t f, In dot b_dots -> fin3 r -> fin3 t -> fin3 f -> upto cap f ->
  let out := g_mv6 (b64_arith L dot) (g_screw (b64_arith L dot) r) (flat3 t ++ flat3 f) in
  Forall bfin (firstn 3 out) ->
  close3 (firstn 3 out) (vadd (vec_of t) (cross (vec_of r) (vec_of f))) (sizes (vec_of t) (vec_of r) (vec_of f)) /\ Forall2 isv (skipn 3 out) (list3 (vec_of f)).
Proof.
  intros L dot [r0 r1 r2] [t0 t1 t2] [f0 f1 f2] HD (Fr0 & Fr1 & Fr2) (Ft0 & Ft1 & Ft2) (Ff0 & Ff1 & Ff2) (B0 & B1 & B2). cbn [w0 w1 w2] in *.
  unfold flat3, list3, vec_of. cbn [g_mv6 g_screw map flat3 app g_hat w0 w1 w2 b64_arith nzero none1 nneg nlit ndot firstn skipn list3 vec_of vx vy vz]. intros HF.
  inversion HF as [|? ? H0 HF1]; subst. inversion HF1 as [|? ? H1 HF2]; subst. inversion HF2 as [|? ? H2 _]; subst. clear HF HF1 HF2. split.
  - cbn [close3 vadd cross sizes vx vy vz]. split; [a_row HD|split; a_row HD].
  - repeat (apply Forall2_cons || apply Forall2_nil). all: an_entry HD. all: match goal with |- rnd ?s = ?v => replace s with v by ring end; apply rnd_exact, fmt_bval.
Qed.
(** the twist moved by its transpose: velocity v + w x r to rounding, the angular velocity untouched *)
Theorem C119_twist : forall L dot r w v, In dot b_dots -> fin3 r -> fin3 w -> fin3 v -> upto cap w ->
  let out := g_mv6 (b64_arith L dot) (g_T6 (b64_arith L dot) (g_screw (b64_arith L dot) r)) (flat3 w ++ flat3 v) in
  Forall bfin (skipn 3 out) ->
  Forall2 isv (firstn 3 out) (list3 (vec_of w)) /\ close3 (skipn 3 out) (vadd (vec_of v) (cross (vec_of w) (vec_of r))) (sizes (vec_of v) (vec_of r) (vec_of w)).
Proof.
  intros L dot [r0 r1 r2] [o0 o1 o2] [f0 f1 f2] HD (Fr0 & Fr1 & Fr2) (Ft0 & Ft1 & Ft2) (Ff0 & Ff1 & Ff2) (B0 & B1 & B2). cbn [w0 w1 w2] in *.
  unfold flat3, list3, vec_of. cbn [g_mv6 g_T6 seq nth g_screw map flat3 app g_hat w0 w1 w2 b64_arith nzero none1 nneg nlit ndot firstn skipn list3 vec_of vx vy vz]. intros HF.
  inversion HF as [|? ? H0 HF1]; subst. inversion HF1 as [|? ? H1 HF2]; subst. inversion HF2 as [|? ? H2 _]; subst. clear HF HF1 HF2. split.
  - repeat (apply Forall2_cons || apply Forall2_nil). all: an_entry HD. all: match goal with |- rnd ?s = ?v => replace s with v by ring end; apply rnd_exact, fmt_bval.
  - cbn [close3 vadd cross sizes vx vy vz]. split; [a_row HD|split; a_row HD].
Qed.

(* ---- hat as a cross product ---- *)
(** hat(k) applied to a vector is the cross product to rounding *)
Theorem C119_cross : forall L dot k v, In dot b_dots -> let out := g_mv (b64_arith L dot) (g_hat (b64_arith L dot) k) v in fin3 out ->
  let s := sizes vzero (vec_of k) (vec_of v) in let c := cross (vec_of k) (vec_of v) in
  Rabs (bval (w0 out) - vx c) <= 7 * uu * vx s + 10 * ee /\ Rabs (bval (w1 out) - vy c) <= 7 * uu * vy s + 10 * ee /\ Rabs (bval (w2 out) - vz c) <= 7 * uu * vz s + 10 * ee.
Proof.
  intros L dot [k0 k1 k2] [v0 v1 v2] HD out (F0 & F1 & F2) s c. unfold out, s, c, sizes, cross, vec_of, vzero in *. clear out s c.
  cbn [g_mv g_hat v3map g_dot3 w0 w1 w2 b64_arith nneg ndot vx vy vz] in *. unfold nzero in *. cbn [b64_arith nlit] in *.
  assert (K : forall a b c x y z v w, bfin (dot [a; b; c] [x; y; z]) -> bval a * bval x + bval b * bval y + bval c * bval z = v -> Rabs (bval a * bval x) + Rabs (bval b * bval y) + Rabs (bval c * bval z) = w -> Rabs (bval (dot [a; b; c] [x; y; z]) - v) <= 7 * uu * w + 10 * ee) by (intros a b c x y z v w F <- <-; exact (proj2 (dot_ok dot HD a b c x y z F))).
  split; [|split]; (apply K; [assumption|abs_tidy; ring|abs_tidy; ring]).
Qed.
(** the orders of summation without fused multiply-add *)
Definition b_plain : list (list b64 -> list b64 -> b64) :=
  [fun a b => sum_seq (combine a b); fun a b => sum_seq (rev (combine a b)); fun a b => sum_pairs (combine a b); fun a b => sum_lanes (combine a b)].
Lemma plain_dots dot : In dot b_plain -> In dot b_dots.
Proof. cbn [b_plain b_dots In]. intuition. Qed.
Lemma add_isv x y u v s (z : b64) : isv x u -> isv y v -> u + v = s -> bval z = s -> isv (b_add x y) s.
Proof.
  intros [Fx Vx] [Fy Vy] E Z. assert (S : bval x + bval y = bval z) by (rewrite Vx, Vy, Z; exact E). destruct (add_range x y Fx Fy) as [F V]; [apply (in_range_exact z); exact S|]. rewrite S, (rnd_exact _ (fmt_bval z)) in V. split; [exact F|rewrite V; exact Z].
Qed.
Lemma b0_isv : isv b_zero 0. Proof. split; reflexivity. Qed.
Lemma plain3 dot a b c d e f u1 u2 u3 (z z' : b64) : In dot b_plain -> isv (b_mul a d) u1 -> isv (b_mul b e) u2 -> isv (b_mul c f) u3 -> bval z = u1 + u2 -> bval z' = u3 + u2 -> u1 + u2 + u3 = 0 -> isv (dot [a; b; c] [d; e; f]) 0.
Proof.
  intros HD H1 H2 H3 Z Z' E. assert (S : isv (b_add (b_add (b_add b_zero (b_mul a d)) (b_mul b e)) (b_mul c f)) 0).
  { apply (add_isv _ _ (u1 + u2) u3 0 b_zero); [apply (add_isv _ _ u1 u2 _ z); [apply (add_isv _ _ 0 u1 _ (b_mul a d)); [exact b0_isv|exact H1|ring|exact (proj2 H1)]|exact H2|reflexivity|exact Z]|exact H3|exact E|reflexivity]. }
  assert (T : isv (b_add (b_add (b_add b_zero (b_mul c f)) (b_mul b e)) (b_mul a d)) 0).
  { apply (add_isv _ _ (u3 + u2) u1 0 b_zero); [apply (add_isv _ _ u3 u2 _ z'); [apply (add_isv _ _ 0 u3 _ (b_mul c f)); [exact b0_isv|exact H3|ring|exact (proj2 H3)]|exact H2|reflexivity|exact Z']|exact H1|lra|reflexivity]. }
  cbn [b_plain In] in HD. destruct HD as [<-|[<-|[<-|[<-|[]]]]]; [exact S|exact T|exact S|exact S].
Qed.
(** a vector is not turned by its own cross product: exactly zero without fused multiply-add *)
Theorem C119_self : forall L dot k, In dot b_plain -> fin3 k -> upto (bpow radix2 400) k ->
  let out := g_mv (b64_arith L dot) (g_hat (b64_arith L dot) k) k in isv (w0 out) 0 /\ isv (w1 out) 0 /\ isv (w2 out) 0.
Proof.
  intros L dot [x y z] HD (Fx & Fy & Fz) (Bx & By & Bz) out. unfold out. clear out. cbn [w0 w1 w2] in *. cbn [g_mv g_hat v3map g_dot3 w0 w1 w2 b64_arith nneg ndot]. unfold nzero. cbn [b64_arith nlit].
  assert (P : forall a b, bfin a -> bfin b -> Rabs (bval a) <= bpow radix2 400 -> Rabs (bval b) <= bpow radix2 400 -> isv (b_mul a b) (rnd (bval a * bval b))).
  { intros a b Fa Fb Ba Bb. apply mul_range; [exact Fa|exact Fb|]. apply in_range. rewrite Rabs_mult. apply Rle_trans with (bpow radix2 400 * bpow radix2 400); [apply Rmult_le_compat; try apply Rabs_pos; assumption|]. rewrite <- bpow_plus. apply bpow_le. lia. }
  assert (N : forall a b, bfin a -> bfin b -> Rabs (bval a) <= bpow radix2 400 -> Rabs (bval b) <= bpow radix2 400 -> isv (b_mul (Bopp a) b) (- rnd (bval a * bval b))).
  { intros a b Fa Fb Ba Bb. eapply isv_eq; [apply P; [apply fin_opp, Fa|exact Fb|apply abs_opp, Ba|exact Bb]|]. rewrite bval_opp, Ropp_mult_distr_l_reverse. apply rnd_opp. }
  assert (Z : forall a, bfin a -> isv (b_mul (b_lit 0 1) a) 0).
  { intros a Fa. assert (E : bval (b_lit 0 1) * bval a = 0) by (rewrite (proj2 zero_isv); ring). eapply isv_eq; [apply mul_range; [reflexivity|exact Fa|rewrite E; apply in_range; rewrite Rabs_R0; apply bpow_ge_0]|]. rewrite E. apply rnd_0. }
  assert (W : forall a b, rnd (bval a * bval b) = rnd (bval b * bval a)) by (intros a b; rewrite Rmult_comm; reflexivity).
  split; [|split].
  - apply (plain3 dot _ _ _ _ _ _ 0 (- rnd (bval z * bval y)) (rnd (bval y * bval z)) (b_mul (Bopp z) y) b_zero HD (Z x Fx) (N z y Fz Fy Bz By) (P y z Fy Fz By Bz)); [rewrite (proj2 (N z y Fz Fy Bz By)); ring|rewrite (W z y); change (bval b_zero) with 0; ring|rewrite (W z y); ring].
  - apply (plain3 dot _ _ _ _ _ _ (rnd (bval z * bval x)) 0 (- rnd (bval x * bval z)) (b_mul z x) (b_mul (Bopp x) z) HD (P z x Fz Fx Bz Bx) (Z y Fy) (N x z Fx Fz Bx Bz)); [rewrite (proj2 (P z x Fz Fx Bz Bx)); ring|rewrite (proj2 (N x z Fx Fz Bx Bz)); ring|rewrite (W z x); ring].
  - apply (plain3 dot _ _ _ _ _ _ (- rnd (bval y * bval x)) (rnd (bval x * bval y)) 0 b_zero (b_mul x y) HD (N y x Fy Fx By Bx) (P x y Fx Fy Bx By) (Z z Fz)); [rewrite (W y x); change (bval b_zero) with 0; ring|rewrite (proj2 (P x y Fx Fy Bx By)); ring|rewrite (W y x); ring].
Qed.
(** with fused multiply-add what is left is the error of rounding one product *)
Theorem C119_self_refuted : exists dot k, In dot b_dots /\ fin3 k /\ upto (bpow radix2 400) k /\ forall L, bval (w0 (g_mv (b64_arith L dot) (g_hat (b64_arith L dot) k) k)) <> 0.
Proof.
  exists (fun a b => sum_fma (combine a b)), (W3 b_zero (b_lit 1 10) (b_lit 1 3)). split; [cbn [b_dots In]; tauto|]. split; [repeat split; vm_compute; reflexivity|].
  split; [|intros L; vm_compute; lra]. split; [|split]; (apply Rle_trans with (bpow radix2 3); [change (bpow radix2 3) with 8; apply Rabs_le; split; vm_compute; lra|apply bpow_le; lia]).
Qed.

(* ---- quatjacobian ---- *)
Definition rows43 (J : mat43) : list (list R) := [list3 (r43_0 J); list3 (r43_1 J); list3 (r43_2 J); list3 (r43_3 J)].
Definition list43 (J : v4 (v3 b64)) : list (list b64) := [flat3 (y0 J); flat3 (y1 J); flat3 (y2 J); flat3 (y3 J)].
Definition flat4 (q : v4 b64) : list b64 := [y0 q; y1 q; y2 q; y3 q].
(** zero, or not so small that half of it is rounded *)
Definition halves (x : b64) : Prop := bfin x /\ (bval x = 0 \/ bpow radix2 (-1021) <= Rabs (bval x)).
Lemma halves_opp x : halves x -> halves (Bopp x).
Proof. intros [F H]. split; [apply fin_opp, F|]. rewrite bval_opp, Rabs_Ropp. destruct H as [H|H]; [left; lra|right; exact H]. Qed.
Lemma half_isv x v w : isv x v -> halves x -> w = 1 / 2 * v -> isv (b_mul (b_lit 1 2) x) w.
Proof. intros [_ E] [F H] ->. rewrite <- E. exact (half_exact x F H). Qed.
Lemma diag x o : bfin x -> isv o 0 -> isv (b_sub (b_mul x (b_lit 1 1)) o) (bval x).
Proof.
  intros F [Fo Vo]. assert (E : bval x * bval (b_lit 1 1) = bval x) by (rewrite (proj2 one_isv); ring). destruct (mul_range x (b_lit 1 1) F eq_refl) as [FM VM]; [apply (in_range_exact x); exact E|]. rewrite E, (rnd_exact _ (fmt_bval x)) in VM.
  assert (E2 : bval (b_mul x (b_lit 1 1)) - bval o = bval x) by (rewrite VM, Vo; ring). destruct (sub_range _ _ FM Fo) as [FS VS]; [apply (in_range_exact x); exact E2|]. rewrite E2, (rnd_exact _ (fmt_bval x)) in VS. split; [exact FS|exact VS].
Qed.
Lemma offdiag q x : bfin q -> bfin x -> isv (b_sub (b_mul q (b_lit 0 1)) x) (- bval x).
Proof.
  intros F Fx. assert (E : bval q * bval (b_lit 0 1) = 0) by (rewrite (proj2 zero_isv); ring). destruct (mul_range q (b_lit 0 1) F eq_refl) as [FM VM]; [rewrite E; apply in_range; rewrite Rabs_R0; apply bpow_ge_0|]. rewrite E, rnd_0 in VM.
  assert (E2 : bval (b_mul q (b_lit 0 1)) - bval x = bval (Bopp x)) by (rewrite VM, bval_opp; ring). destruct (sub_range _ _ FM Fx) as [FS VS]; [apply (in_range_exact (Bopp x)); exact E2|]. rewrite E2, (rnd_exact _ (fmt_bval _)), bval_opp in VS. split; [exact FS|exact VS].
Qed.
Lemma halves_of x v y : isv x v -> halves y -> v = bval y \/ v = - bval y -> halves x.
Proof. intros [F E] [_ H] V. split; [exact F|]. rewrite E. destruct V as [-> | ->]; [exact H|]. rewrite Rabs_Ropp. destruct H as [H|H]; [left; lra|right; exact H]. Qed.
Lemma jac_rows L dot a b c d : list43 (g_quatjac (b64_arith L dot) (W4 a b c d)) =
  let h x := b_mul (b_lit 1 2) x in let p := b_sub (b_mul a (b_lit 1 1)) (b_lit 0 1) in let m x := b_sub (b_mul a (b_lit 0 1)) x in
  [[h (Bopp b); h (Bopp c); h (Bopp d)]; [h p; h (m (Bopp d)); h (m c)]; [h (m d); h p; h (m (Bopp b))]; [h (m (Bopp c)); h (m b); h p]].
Proof. reflexivity. Qed.
(** quatjacobian is exact *)
Theorem C119_jacobian : forall L dot q, Forall halves (flat4 q) -> Forall2 (Forall2 isv) (list43 (g_quatjac (b64_arith L dot) q)) (rows43 (quatjacobian (quat_of q))).
Proof.
  intros L dot [a b c d] H. inversion H as [|? ? Ha H1]; subst. inversion H1 as [|? ? Hb H2]; subst. inversion H2 as [|? ? Hc H3]; subst. inversion H3 as [|? ? Hd _]; subst. clear H H1 H2 H3. cbn [y0 y1 y2 y3] in *.
  rewrite jac_rows. cbv zeta. change (rows43 (quatjacobian (quat_of (W4 a b c d)))) with
    [[1 / 2 * - bval b; 1 / 2 * - bval c; 1 / 2 * - bval d]; [1 / 2 * (bval a * 1 - 0); 1 / 2 * (bval a * 0 - - bval d); 1 / 2 * (bval a * 0 - bval c)];
     [1 / 2 * (bval a * 0 - bval d); 1 / 2 * (bval a * 1 - 0); 1 / 2 * (bval a * 0 - - bval b)]; [1 / 2 * (bval a * 0 - - bval c); 1 / 2 * (bval a * 0 - bval b); 1 / 2 * (bval a * 1 - 0)]].
  assert (OP : forall x, halves x -> isv (b_mul (b_lit 1 2) (Bopp x)) (1 / 2 * - bval x)) by (intros x Hx; eapply half_isv; [exact (opp_isv x (proj1 Hx))|exact (halves_opp x Hx)|reflexivity]).
  assert (DI : isv (b_mul (b_lit 1 2) (b_sub (b_mul a (b_lit 1 1)) (b_lit 0 1))) (1 / 2 * (bval a * 1 - 0))) by (pose proof (diag a (b_lit 0 1) (proj1 Ha) zero_isv) as D; eapply half_isv; [exact D|exact (halves_of _ _ a D Ha (or_introl eq_refl))|field]).
  assert (OF : forall x, halves x -> isv (b_mul (b_lit 1 2) (b_sub (b_mul a (b_lit 0 1)) x)) (1 / 2 * (bval a * 0 - bval x))) by (intros x Hx; pose proof (offdiag a x (proj1 Ha) (proj1 Hx)) as D; eapply half_isv; [exact D|exact (halves_of _ _ x D Hx (or_intror eq_refl))|field]).
  assert (OO : forall x, halves x -> isv (b_mul (b_lit 1 2) (b_sub (b_mul a (b_lit 0 1)) (Bopp x))) (1 / 2 * (bval a * 0 - - bval x))) by (intros x Hx; rewrite <- bval_opp; apply OF, halves_opp, Hx).
  repeat (apply Forall2_cons || apply Forall2_nil).
  all: lazymatch goal with
    | |- isv (b_mul _ (Bopp ?x)) _ => eapply isv_eq; [apply (OP x); assumption|]
    | |- isv (b_mul _ (b_sub _ (b_lit 0 1))) _ => eapply isv_eq; [exact DI|]
    | |- isv (b_mul _ (b_sub _ (Bopp ?x))) _ => eapply isv_eq; [apply (OO x); assumption|]
    | |- isv (b_mul _ (b_sub _ ?x)) _ => eapply isv_eq; [apply (OF x); assumption|]
    end; ring.
Qed.
(** the rate it gives to an angular velocity *)
Definition qnear (x q e : quat) : Prop := Rabs (q0 x - q0 q) <= q0 e /\ Rabs (q1 x - q1 q) <= q1 e /\ Rabs (q2 x - q2 q) <= q2 e /\ Rabs (q3 x - q3 q) <= q3 e.
Theorem C119_rate : forall L dot q w W, In dot b_dots -> Forall halves (flat4 q) -> (forall x, In x (flat4 q) -> Rabs (bval x) <= 1) -> upto W w ->
  let rate := g_mv43 (b64_arith L dot) (g_quatjac (b64_arith L dot) q) w in Forall bfin (flat4 rate) ->
  let e := 21 / 2 * uu * W + 10 * ee in qnear (quat_of rate) (m43vec (quatjacobian (quat_of q)) (vec_of w)) (Q4 e e e e) /\ Rabs (qdot (quat_of q) (quat_of rate)) <= 4 * e.
Proof.
  intros L dot q w W HD HQ HQ1 (U0 & U1 & U2) rate HF e. pose proof (C119_jacobian L dot q HQ) as J. unfold rate in *. destruct (g_quatjac (b64_arith L dot) q) as [[a0 a1 a2] [b0 b1 b2] [c0 c1 c2] [d0 d1 d2]].
  assert (QE : q0 (quat_of q) = bval (y0 q) /\ q1 (quat_of q) = bval (y1 q) /\ q2 (quat_of q) = bval (y2 q) /\ q3 (quat_of q) = bval (y3 q)) by (repeat split).
  assert (Q0 : Rabs (bval (y0 q)) <= 1) by (apply HQ1; cbn; tauto). assert (Q1 : Rabs (bval (y1 q)) <= 1) by (apply HQ1; cbn; tauto). assert (Q2 : Rabs (bval (y2 q)) <= 1) by (apply HQ1; cbn; tauto). assert (Q3 : Rabs (bval (y3 q)) <= 1) by (apply HQ1; cbn; tauto).
  assert (W0' : 0 <= W) by (pose proof (Rabs_pos (bval (w0 w))); lra).
  assert (HA : forall x, Rabs x <= 1 -> Rabs (1 / 2 * x) <= 1 / 2) by (intros x Hx; rewrite Rabs_mult, (Rabs_right (1 / 2)) by lra; lra).
  assert (K : forall x y z (p : vec3), Forall2 isv [x; y; z] (list3 p) -> Rabs (vx p) <= 1 / 2 -> Rabs (vy p) <= 1 / 2 -> Rabs (vz p) <= 1 / 2 -> bfin (dot [x; y; z] [w0 w; w1 w; w2 w]) -> Rabs (bval (dot [x; y; z] [w0 w; w1 w; w2 w]) - LinAlg.dot p (vec_of w)) <= e).
  { intros x y z [p0 p1 p2] HP P0 P1 P2 F. cbn [list3 vx vy vz] in *. inversion HP as [|? ? ? ? [_ E0] HP1]; subst. inversion HP1 as [|? ? ? ? [_ E1] HP2]; subst. inversion HP2 as [|? ? ? ? [_ E2] _]; subst.
    destruct (dot_ok dot HD x y z _ _ _ F) as [_ D]. unfold LinAlg.dot. cbn [vx vy vz vec_of]. eapply Rle_trans; [exact D|]. assert (M : forall u v, Rabs u <= 1 / 2 -> Rabs v <= W -> Rabs (u * v) <= 1 / 2 * W) by (intros u v Hu Hv; rewrite Rabs_mult; apply Rmult_le_compat; try apply Rabs_pos; assumption).
    pose proof (M _ _ P0 U0). pose proof (M _ _ P1 U1). pose proof (M _ _ P2 U2). pose proof uu_pos. unfold e. nra. }
  cbn [list43 flat3 y0 y1 y2 y3 w0 w1 w2 rows43] in J. inversion J as [|? ? ? ? J0 J']; subst. inversion J' as [|? ? ? ? J1 J'']; subst. inversion J'' as [|? ? ? ? J2 J3']; subst. inversion J3' as [|? ? ? ? J3 _]; subst.
  cbn [g_mv43 g_dot3 flat4 y0 y1 y2 y3 w0 w1 w2 b64_arith ndot] in HF |- *. inversion HF as [|? ? G0 HF1]; subst. inversion HF1 as [|? ? G1 HF2]; subst. inversion HF2 as [|? ? G2 HF3]; subst. inversion HF3 as [|? ? G3 _]; subst.
  assert (SZ : forall x, Rabs x <= 1 -> Rabs (1 / 2 * - x) <= 1 / 2 /\ Rabs (1 / 2 * (bval (y0 q) * 0 - x)) <= 1 / 2 /\ Rabs (1 / 2 * (bval (y0 q) * 0 - - x)) <= 1 / 2).
  { intros x Hx. split; [apply HA; rewrite Rabs_Ropp; exact Hx|]. split; apply HA; [replace (bval (y0 q) * 0 - x) with (- x) by ring; rewrite Rabs_Ropp; exact Hx|replace (bval (y0 q) * 0 - - x) with x by ring; exact Hx]. }
  assert (DG : Rabs (1 / 2 * (bval (y0 q) * 1 - 0)) <= 1 / 2) by (apply HA; replace (bval (y0 q) * 1 - 0) with (bval (y0 q)) by ring; exact Q0).
  destruct (SZ _ Q1) as (? & ? & ?), (SZ _ Q2) as (? & ? & ?), (SZ _ Q3) as (? & ? & ?).
  assert (N : qnear (quat_of (W4 (dot [a0; a1; a2] [w0 w; w1 w; w2 w]) (dot [b0; b1; b2] [w0 w; w1 w; w2 w]) (dot [c0; c1; c2] [w0 w; w1 w; w2 w]) (dot [d0; d1; d2] [w0 w; w1 w; w2 w]))) (m43vec (quatjacobian (quat_of q)) (vec_of w)) (Q4 e e e e)).
  { split; [|split; [|split]]; cbn [quat_of m43vec q0 q1 q2 q3 y0 y1 y2 y3]; (apply K; [eassumption|..|assumption]); assumption. }
  split; [exact N|]. destruct N as (N0 & N1 & N2 & N3). pose proof (proj2 (PropRot.C12_quatjacobian_tangent (quat_of q) (vec_of w))) as TG. clearbody e. set (g := m43vec (quatjacobian (quat_of q)) (vec_of w)) in *.
  set (x := quat_of (W4 _ _ _ _)) in *. change (Rabs (qdot (quat_of q) x) <= 4 * e). cbn [q0 q1 q2 q3] in N0, N1, N2, N3. assert (E0 : 0 <= e) by (pose proof (Rabs_pos (q0 x - q0 g)); lra).
  replace (qdot (quat_of q) x) with (bval (y0 q) * (q0 x - q0 g) + bval (y1 q) * (q1 x - q1 g) + bval (y2 q) * (q2 x - q2 g) + bval (y3 q) * (q3 x - q3 g)) by (unfold qdot in *; cbn [quat_of q0 q1 q2 q3] in TG |- *; lra).
  assert (M : forall u v, Rabs u <= 1 -> Rabs v <= e -> Rabs (u * v) <= e) by (intros u v Hu Hv; rewrite Rabs_mult; replace e with (1 * e) by ring; apply Rmult_le_compat; try apply Rabs_pos; assumption).
  clear K. clearbody g x.
  pose proof (M _ _ Q0 N0). pose proof (M _ _ Q1 N1). pose proof (M _ _ Q2 N2). pose proof (M _ _ Q3 N3).
  eapply Rle_trans; [apply Rabs_triang|]. eapply Rle_trans; [apply Rplus_le_compat_r, Rabs_triang|]. eapply Rle_trans; [apply Rplus_le_compat_r, Rplus_le_compat_r, Rabs_triang|]. lra.
Qed.

(* ---- the reals ---- *)
Definition w3_of (v : vec3) : v3 R := W3 (vx v) (vy v) (vz v).
Lemma cons_eq {T} (x y : T) l m : x = y -> l = m -> x :: l = y :: m. Proof. intros -> ->. reflexivity. Qed.
Ltac entries := repeat first [exact (eq_refl (@nil R))|exact (eq_refl (@nil (list R)))|apply (@cons_eq (list R))|apply (@cons_eq R)].
(** over the reals these are the functions of the other properties *)
Theorem C119_reals : forall r a b q, g_screw real_arith (w3_of r) = rows6 (screw_matrix r) /\
  g_mm6 real_arith (rows6 (screw_matrix a)) (rows6 (screw_matrix b)) = rows6 (m6mul (screw_matrix a) (screw_matrix b)) /\
  (forall v, g_mv6 real_arith (rows6 (screw_matrix r)) (list3 (hi3 v) ++ list3 (lo3 v)) = list3 (hi3 (m6vec (screw_matrix r) v)) ++ list3 (lo3 (m6vec (screw_matrix r) v))) /\
  (let J := g_quatjac real_arith (W4 (q0 q) (q1 q) (q2 q) (q3 q)) in let row (x : v3 R) := [w0 x; w1 x; w2 x] in [row (y0 J); row (y1 J); row (y2 J); row (y3 J)] = rows43 (quatjacobian q)).
Proof.
  intros [r0 r1 r2] [a0 a1 a2] [b0 b1 b2] [p0 p1 p2 p3]. split; [|split; [|split]].
  - cbn. entries; unfold nzero, none1; cbn; match goal with |- @eq _ ?x ?y => change (@eq R x y) end; field.
  - cbn. entries; unfold nzero, none1; cbn; match goal with |- @eq _ ?x ?y => change (@eq R x y) end; field.
  - intros [[t0 t1 t2] [f0 f1 f2]]. cbn. entries; unfold nzero, none1; cbn; match goal with |- @eq _ ?x ?y => change (@eq R x y) end; field.
  - cbn. entries; unfold nzero, none1; cbn; match goal with |- @eq _ ?x ?y => change (@eq R x y) end; field.
Qed.

(* ---- a case ---- *)
Definition sc_a : v3 b64 := W3 (b_lit 1 10) (b_lit (-2) 3) (b_ofZ 5).
Definition sc_b : v3 b64 := W3 (b_lit 1 5) (b_lit 1 7) (b_lit 1 3).
Definition sc_q : v4 b64 := W4 (b_lit 3 5) b_zero (b_lit (-4) 5) b_zero.
Lemma small_cap (x : b64) : -8 <= bval x <= 8 -> Rabs (bval x) <= cap.
Proof. intros H. apply Rle_trans with (bpow radix2 3); [|apply bpow_le; lia]. change (bpow radix2 3) with 8. apply Rabs_le. lra. Qed.
Lemma big_half (x : b64) : bfin x -> 1 / 2 <= Rabs (bval x) -> halves x.
Proof. intros F H. split; [exact F|]. right. apply Rle_trans with (bpow radix2 (-1)); [apply bpow_le; lia|]. replace (bpow radix2 (-1)) with (1 / 2) by (cbn; lra). exact H. Qed.
(** two displacements whose sum is rounded *)
Example C119_ex : fin3 sc_a /\ fin3 sc_b /\ upto cap sc_a /\ upto cap sc_b /\ rnd (bval (w0 sc_a) + bval (w0 sc_b)) <> bval (w0 sc_a) + bval (w0 sc_b).
Proof.
  split; [repeat split; vm_compute; reflexivity|]. split; [repeat split; vm_compute; reflexivity|].
  split; [split; [|split]; apply small_cap; split; vm_compute; lra|]. split; [split; [|split]; apply small_cap; split; vm_compute; lra|].
  assert (V : isv (b_add (w0 sc_a) (w0 sc_b)) (rnd (bval (w0 sc_a) + bval (w0 sc_b)))).
  { apply add_range; [reflexivity|reflexivity|]. apply in_range. apply Rle_trans with (bpow radix2 3); [|apply bpow_le; lia]. change (bpow radix2 3) with 8. apply Rabs_le. split; vm_compute; lra. }
  rewrite <- (proj2 V). vm_compute. lra.
Qed.
(** a wrench and a twist *)
Example C119_wrench_ex : forall dot, In dot b_dots -> let A := b64_arith exact_libm dot in
  Forall bfin (firstn 3 (g_mv6 A (g_screw A sc_a) (flat3 sc_b ++ flat3 sc_a))) /\ Forall bfin (skipn 3 (g_mv6 A (g_T6 A (g_screw A sc_a)) (flat3 sc_b ++ flat3 sc_a))).
Proof.
  intros dot HD A. unfold A. clear A. cbn [In b_dots] in HD. repeat (destruct HD as [<- | HD]; [split; repeat (apply Forall_cons; [vm_compute; reflexivity|]); apply Forall_nil|]). contradiction.
Qed.
(** a rotation about y *)
Example C119_rate_ex : Forall halves (flat4 sc_q) /\ (forall x, In x (flat4 sc_q) -> Rabs (bval x) <= 1) /\
  forall dot, In dot b_dots -> let A := b64_arith exact_libm dot in Forall bfin (flat4 (g_mv43 A (g_quatjac A sc_q) sc_b)).
Proof.
  split; [|split].
  - assert (Z : halves b_zero) by (split; [reflexivity|left; reflexivity]). apply Forall_cons; [apply big_half; [reflexivity|]; rewrite Rabs_right; vm_compute; lra|]. apply Forall_cons; [exact Z|]. apply Forall_cons; [apply big_half; [reflexivity|]; rewrite Rabs_left; vm_compute; lra|]. apply Forall_cons; [exact Z|apply Forall_nil].
  - intros x Hx. cbn [flat4 sc_q y0 y1 y2 y3 In] in Hx. destruct Hx as [<-|[<-|[<-|[<-|[]]]]]; apply Rabs_le; split; vm_compute; lra.
  - intros dot HD A. unfold A. clear A. cbn [In b_dots] in HD. repeat (destruct HD as [<- | HD]; [repeat (apply Forall_cons; [vm_compute; reflexivity|]); apply Forall_nil|]). contradiction.
Qed.
Example C119_cross_ex : forall dot, In dot b_dots -> let A := b64_arith exact_libm dot in fin3 (g_mv A (g_hat A sc_a) sc_b).
Proof. intros dot HD A. unfold A. clear A. cbn [In b_dots] in HD. repeat (destruct HD as [<- | HD]; [repeat split; vm_compute; reflexivity|]). contradiction. Qed.
Example C119_self_ex : fin3 sc_a /\ upto (bpow radix2 400) sc_a.
Proof. split; [repeat split; vm_compute; reflexivity|]. split; [|split]; (apply Rle_trans with (bpow radix2 3); [change (bpow radix2 3) with 8; apply Rabs_le; split; vm_compute; lra|apply bpow_le; lia]). Qed.
(** a matrix that is not antisymmetric *)
Example C119_near_ex : forall r, In r [sc_a; sc_b; sc_a] -> fin3 r /\ upto cap r.
Proof. destruct C119_ex as (Fa & Fb & Ba & Bb & _). intros r [<-|[<-|[<-|[]]]]; split; assumption. Qed.
Print Assumptions C119_invhat.
Print Assumptions C119_invhat_refuted.
Print Assumptions C119_screw.
Print Assumptions C119_screw_product.
Print Assumptions C119_screw_sum.
Print Assumptions C119_screw_inverse.
Print Assumptions C119_wrench.
Print Assumptions C119_twist.
Print Assumptions C119_jacobian.
Print Assumptions C119_rate.
Print Assumptions C119_reals.
Print Assumptions C119_cross.
Print Assumptions C119_self.
Print Assumptions C119_self_refuted.
Print Assumptions C119_invhat_near.
