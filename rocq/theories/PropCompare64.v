(** Property C117: comparison and inverse of Transforms in binary64. *)
From Coq Require Import Reals ZArith List Bool Lra Lia Psatz.
From Flocq Require Import Core.Core IEEE754.BinarySingleNaN.
From Verif Require Import LinAlg RealAux Py FactsReal FactsLinAlg ModelRot SpecRot FactsRot FactsNorm SpecSub FactsSub ModelFloat ModelFloat2 ModelFloat3 ModelFloat6 ModelFloat9 ModelFloat10 ModelFloat11 ModelFloat12 ModelFloat13 SpecRound FactsRound FactsB64 FactsExact FactsTrack FactsFloat SpecArc SpecSub4 SpecRpy FactsPath64 ModelTransform ModelRobot ModelKin SpecKin SpecInvkin FactsKin SpecArc2 SpecRobot64 FactsRobot64 SpecTrip64 SpecCompare64 FactsCompare64.
From Verif Require Import PropMove PropFloat PropPi PropIterEnd PropAngle PropRobot64 PropUr64 PropTrip64.
Import ListNotations.
Open Scope R_scope.

Lemma lit6 : bfin (b_lit 1 1000000) /\ Rabs (bval (b_lit 1 1000000) - 1 / 1000000) <= uu * (1 / 1000000).
Proof. split; [reflexivity|]. apply Rabs_le. split; vm_compute; lra. Qed.
Lemma lit8 : bfin (b_lit 1 100000000) /\ Rabs (bval (b_lit 1 100000000) - 1 / 100000000) <= uu * (1 / 100000000).
Proof. split; [reflexivity|]. apply Rabs_le. split; vm_compute; lra. Qed.
Lemma lit5 : bfin (b_lit 1 100000) /\ Rabs (bval (b_lit 1 100000) - 1 / 100000) <= uu * (1 / 100000).
Proof. split; [reflexivity|]. apply Rabs_le. split; vm_compute; lra. Qed.
Lemma small_ok n d : (-900 <= n)%Z -> bpow radix2 n <= d -> d <= 1 -> bpow radix2 (-900) <= d <= bpow radix2 900.
Proof. intros H1 H2 H3. split; [eapply Rle_trans; [apply bpow_le; exact H1|exact H2]|]. apply Rle_trans with (bpow radix2 0); [exact H3|apply bpow_le; lia]. Qed.
Lemma eight_ok : bpow radix2 (-900) <= 1 / 100000000 <= bpow radix2 900.
Proof. apply (small_ok (-27)); [lia|cbn; lra|lra]. Qed.

Section Each.
Context {A : arith}.
Lemma v_each_impl (P Q : num A -> num A -> Prop) a b : (forall x y, P x y -> Q x y) -> v_each P a b -> v_each Q a b.
Proof. intros H (X & Y & Z). repeat split; apply H; assumption. Qed.
Lemma t_each_impl (P Q : num A -> num A -> Prop) a b : (forall x y, P x y -> Q x y) -> t_each P a b -> t_each Q a b.
Proof. intros H ((X & Y & Z) & V). repeat split; try (apply (v_each_impl P Q); assumption); apply H; apply X || apply Y || apply Z || apply V. Qed.
Lemma v_each_and (P Q : num A -> num A -> Prop) a b : v_each P a b -> v_each Q a b -> v_each (fun x y => P x y /\ Q x y) a b.
Proof. intros (X & Y & Z) (X' & Y' & Z'). repeat split; assumption. Qed.
Lemma t_each_and (P Q : num A -> num A -> Prop) a b : t_each P a b -> t_each Q a b -> t_each (fun x y => P x y /\ Q x y) a b.
Proof. intros ((X & Y & Z) & V) ((X' & Y' & Z') & V'). split; [split; [|split]|]; apply v_each_and; assumption. Qed.
Lemma v_near_each rt at_ a b : g_v_near A rt at_ a b = true <-> v_each (fun x y => g_near A rt at_ x y = true) a b.
Proof. unfold g_v_near, v_each. rewrite !andb_true_iff. tauto. Qed.
Lemma near_each rt at_ (a b : gtf A) : (g_m_near A rt at_ (gR a) (gR b) && g_v_near A rt at_ (gp a) (gp b))%bool = true <-> t_each (fun x y => g_near A rt at_ x y = true) a b.
Proof. unfold g_m_near, t_each, m_each. rewrite !andb_true_iff, !v_near_each. tauto. Qed.
End Each.

(** x and y are numbers of moderate size *)
Definition both_usual (x y : b64) : Prop := bfin x /\ bfin y /\ Rabs (bval y) <= bpow radix2 900 /\ Rabs (bval x - bval y) <= bpow radix2 1000.
(** |x - y| <= atol + rtol |y|, with a factor c *)
Definition within (c rtol atol : R) (x y : b64) : Prop := Rabs (bval x - bval y) <= c * (atol + rtol * Rabs (bval y)).

(** == decides closeness entry by entry, up to a factor of 1 +- 2^-50 *)
Theorem C117_eq : forall L bdot (a b : gtf (b64_arith L bdot)), t_each (A := b64_arith L bdot) both_usual a b ->
  (g_teq (b64_arith L bdot) a b = true -> t_each (A := b64_arith L bdot) (within (1 + bpow radix2 (-50)) (1 / 1000000) (1 / 100000000)) a b) /\
  (t_each (A := b64_arith L bdot) (within (1 - bpow radix2 (-50)) (1 / 1000000) (1 / 100000000)) a b -> g_teq (b64_arith L bdot) a b = true).
Proof.
  intros L bdot a b US. destruct lit6 as [F6 V6]. destruct lit8 as [F8 V8]. unfold g_teq. rewrite near_each. split; intros H.
  - eapply (t_each_impl (A := b64_arith L bdot)); [|exact (t_each_and (A := b64_arith L bdot) _ _ _ _ US H)]. cbv beta. intros x y ((Fx & Fy & By & Bd) & N). destruct (near_iff L bdot (b_lit 1 1000000) (b_lit 1 100000000) x y (1 / 1000000) (1 / 100000000)) as [K _]; try assumption; try lra; try exact eight_ok. exact (K N).
  - eapply (t_each_impl (A := b64_arith L bdot)); [|exact (t_each_and (A := b64_arith L bdot) _ _ _ _ US H)]. cbv beta. intros x y ((Fx & Fy & By & Bd) & N). destruct (near_iff L bdot (b_lit 1 1000000) (b_lit 1 100000000) x y (1 / 1000000) (1 / 100000000)) as [_ K]; try assumption; try lra; try exact eight_ok. exact (K N).
Qed.
(** isclose the same with its tolerance *)
Theorem C117_isclose : forall L bdot (a b : gtf (b64_arith L bdot)) (tol : b64), t_each (A := b64_arith L bdot) both_usual a b -> bfin tol -> bpow radix2 (-900) <= bval tol <= bpow radix2 900 ->
  (g_tisclose (b64_arith L bdot) a b tol = true -> t_each (A := b64_arith L bdot) (within (1 + bpow radix2 (-50)) (1 / 100000) (bval tol)) a b) /\
  (t_each (A := b64_arith L bdot) (within (1 - bpow radix2 (-50)) (1 / 100000) (bval tol)) a b -> g_tisclose (b64_arith L bdot) a b tol = true).
Proof.
  intros L bdot a b tol US FT BT. destruct lit5 as [F5 V5]. unfold g_tisclose. rewrite near_each.
  assert (E0 : Rabs (bval tol - bval tol) <= uu * bval tol). { replace (bval tol - bval tol) with 0 by ring. rewrite Rabs_R0. pose proof uu_pos. pose proof (bpow_gt_0 radix2 (-900)). apply Rmult_le_pos; lra. }
  split; intros H.
  - eapply (t_each_impl (A := b64_arith L bdot)); [|exact (t_each_and (A := b64_arith L bdot) _ _ _ _ US H)]. cbv beta. intros x y ((Fx & Fy & By & Bd) & N). destruct (near_iff L bdot (b_lit 1 100000) tol x y (1 / 100000) (bval tol)) as [K _]; try assumption; try lra. exact (K N).
  - eapply (t_each_impl (A := b64_arith L bdot)); [|exact (t_each_and (A := b64_arith L bdot) _ _ _ _ US H)]. cbv beta. intros x y ((Fx & Fy & By & Bd) & N). destruct (near_iff L bdot (b_lit 1 100000) tol x y (1 / 100000) (bval tol)) as [_ K]; try assumption; try lra. exact (K N).
Qed.
(** a Transform equals itself exactly when it contains no NaN *)
Theorem C117_self : forall L bdot (a : gtf (b64_arith L bdot)), g_teq (b64_arith L bdot) a a = true <-> t_each (A := b64_arith L bdot) (fun x _ : b64 => is_nan x = false) a a.
Proof.
  intros L bdot a. destruct lit6 as [F6 _]. destruct lit8 as [F8 _]. unfold g_teq. rewrite near_each.
  unfold t_each, m_each, v_each. pose proof (fun x => near_self L bdot (b_lit 1 1000000) (b_lit 1 100000000) x F6 F8) as NS. change (nlit (b64_arith L bdot)) with b_lit. rewrite !NS. tauto.
Qed.

(** an infinite entry only matches itself, and NaN matches nothing *)
Theorem C117_special : forall L bdot (a b : gtf (b64_arith L bdot)), g_teq (b64_arith L bdot) a b = true ->
  t_each (A := b64_arith L bdot) (fun x y : b64 => (bfin x /\ bfin y) \/ (x = y /\ is_nan x = false)) a b.
Proof.
  intros L bdot a b. destruct lit6 as [F6 V6]. destruct lit8 as [F8 V8]. unfold g_teq. rewrite near_each. intros H. eapply (t_each_impl (A := b64_arith L bdot)); [|exact H]. cbv beta. intros x y N.
  apply Rabs_le_inv in V6, V8. pose proof uu_pos. pose proof uu_small. apply (near_special L bdot (b_lit 1 1000000) (b_lit 1 100000000) x y); try assumption; apply Rabs_le.
  - assert (1 / 1000 < bpow radix2 (-10) + 1 / 10000) by (cbn; lra). nra.
  - assert (1 <= bpow radix2 900) by (change 1 with (bpow radix2 0); apply bpow_le; lia). nra.
Qed.
Theorem C117_special_isclose : forall L bdot (a b : gtf (b64_arith L bdot)) (tol : b64), bfin tol -> Rabs (bval tol) <= bpow radix2 900 -> g_tisclose (b64_arith L bdot) a b tol = true ->
  t_each (A := b64_arith L bdot) (fun x y : b64 => (bfin x /\ bfin y) \/ (x = y /\ is_nan x = false)) a b.
Proof.
  intros L bdot a b tol FT BT. destruct lit5 as [F5 V5]. unfold g_tisclose. rewrite near_each. intros H. eapply (t_each_impl (A := b64_arith L bdot)); [|exact H]. cbv beta. intros x y N.
  apply Rabs_le_inv in V5. pose proof uu_pos. pose proof uu_small. apply (near_special L bdot (b_lit 1 100000) tol x y); try assumption. apply Rabs_le.
  assert (1 / 1000 < bpow radix2 (-10) + 1 / 10000) by (cbn; lra). nra.
Qed.

(* ---- the inverse ---- *)
Section Inverse.
Context (L : libm) (bdot : list b64 -> list b64 -> b64) (HD : In bdot b_dots) (HL : libm_ok L (bpow radix2 (-52))).
Notation A := (b64_arith L bdot).
Notation mc := (FactsPath64.mc L bdot).
Notation vc := (FactsPath64.vc L bdot).
Lemma wide_pose M (a : gtf A) T : 0 <= M -> stored_pose L bdot M a T -> stored_pose L bdot (2 * M) a T.
Proof. intros MP (S & R & (F0 & F1 & F2 & E & N)). split; [exact S|]. split; [exact R|]. repeat split; try assumption. lra. Qed.
Lemma cancel_mc M (a : gtf A) T : bpow radix2 (-370) <= M <= bpow radix2 370 -> stored_pose L bdot M a T ->
  (mc 1047 (gR (g_tmul A a (g_tinv A a))) I3 /\ vc (2 * M) 1072 (gp (g_tmul A a (g_tinv A a))) vzero) /\
  (mc 1047 (gR (g_tmul A (g_tinv A a) a)) I3 /\ vc (2 * M) 1072 (gp (g_tmul A (g_tinv A a) a)) vzero).
Proof.
  intros RM SP. assert (MP : 0 < M) by (pose proof (bpow_gt_0 radix2 (-370)); lra).
  assert (RM2 : rg 380 (2 * M)). { split; [apply Rle_trans with (bpow radix2 (-370)); [apply bpow_le; lia|lra]|]. apply Rle_trans with (bpow radix2 1 * bpow radix2 370); [change (bpow radix2 1) with 2; lra|]. rewrite <- bpow_plus. apply bpow_le. lia. }
  pose proof (wide_pose M a T ltac:(lra) SP) as SW. destruct (pose_mc L bdot _ a T SW) as [MA VA]. destruct (inv_ok L bdot HD HL _ a T RM2 SW) as (MI & VI & NI).
  assert (NT : norm (tp T) <= M) by apply SP. assert (S : is_SO3 (tR T)) by apply SP.
  destruct (mul_ok L bdot HD HL (2 * M) 512 0 512 535 a (g_tinv A a) T (tinv T)) as (M1 & V1 & _); try assumption; try lra.
  destruct (mul_ok L bdot HD HL (2 * M) 512 535 512 0 (g_tinv A a) a (tinv T) T) as (M2 & V2 & _); try assumption; try lra.
  destruct (tmul_inv_r T S) as [R1 P1]. destruct (tmul_inv_l T S) as [R2 P2]. cbn [identity_transform tR tp] in R1, P1, R2, P2. rewrite R1 in M1. rewrite P1 in V1. rewrite R2 in M2. rewrite P2 in V2.
  split; (split; [eapply mc_weak; [|eassumption]; lra|eapply vc_weak; [lra| |eassumption]; lra]).
Qed.
End Inverse.

(** T * T.inv() and T.inv() * T move every point to almost where it was *)
Theorem C117_inverse : forall L bdot M (a : gtf (b64_arith L bdot)) T, In bdot b_dots -> libm_ok L (bpow radix2 (-52)) -> bpow radix2 (-370) <= M <= bpow radix2 370 -> stored_pose L bdot M a T ->
  forall e, e = g_tmul (b64_arith L bdot) a (g_tinv (b64_arith L bdot) a) \/ e = g_tmul (b64_arith L bdot) (g_tinv (b64_arith L bdot) a) a ->
  whole e /\ forall u, norm (vsub (moved e u) u) <= bpow radix2 (-41) * (M + norm u).
Proof.
  intros L bdot M a T HD HL RM SP e HE. destruct (cancel_mc L bdot HD HL M a T RM SP) as [[M1 V1] [M2 V2]].
  assert (K : mc L bdot 1047 (gR e) I3 /\ vc L bdot (2 * M) 1072 (gp e) vzero) by (destruct HE as [-> | ->]; split; assumption). clear M1 V1 M2 V2 HE.
  destruct K as [(FM & EM & _) (FV & EV & _)]. split; [split; assumption|]. intros u. unfold moved.
  set (X := mval (A := b64_arith L bdot) bval (gR e)) in *. set (y := vval (A := b64_arith L bdot) bval (gp e)) in *.
  replace (vsub (vadd (mvec X u) y) u) with (vadd (mvec (msub X I3) u) (vsub y vzero)) by la_ring.
  eapply Rle_trans; [apply norm_triangle|]. pose proof (norm_mvec_le (msub X I3) u) as NM. pose proof (norm_nonneg u) as NU. pose proof uu_pos as UP.
  assert (K1 : frob (msub X I3) * norm u <= 1047 * uu * norm u) by (apply Rmult_le_compat_r; lra).
  assert (B41 : bpow radix2 (-41) = 4096 * uu) by (unfold uu; change (-41)%Z with (12 + -53)%Z; rewrite bpow_plus; reflexivity). rewrite B41.
  assert (MP : 0 < M) by (pose proof (bpow_gt_0 radix2 (-370)); lra). assert (0 <= uu * M) by (apply Rmult_le_pos; lra). assert (0 <= uu * norm u) by (apply Rmult_le_pos; lra). lra.
Qed.
(** the inverse of the inverse: the same rotation bit by bit, almost the same position *)
Theorem C117_inv_inv : forall L bdot M (a : gtf (b64_arith L bdot)) T, In bdot b_dots -> libm_ok L (bpow radix2 (-52)) -> bpow radix2 (-370) <= M <= bpow radix2 370 -> stored_pose L bdot M a T ->
  let b := g_tinv (b64_arith L bdot) (g_tinv (b64_arith L bdot) a) in
  gR b = gR a /\ vfin (A := b64_arith L bdot) bfin (gp b) /\ norm (vsub (vval (A := b64_arith L bdot) bval (gp b)) (vval (A := b64_arith L bdot) bval (gp a))) <= bpow radix2 (-42) * M.
Proof.
  intros L bdot M a T HD HL RM SP b. assert (MP : 0 < M) by (pose proof (bpow_gt_0 radix2 (-370)); lra).
  assert (RM' : rg 380 M) by (split; [apply Rle_trans with (bpow radix2 (-370)); [apply bpow_le; lia|lra]|apply Rle_trans with (bpow radix2 370); [lra|apply bpow_le; lia]]).
  assert (ER : gR b = gR a) by (unfold b, g_tinv; cbn [gR]; destruct a as [[[? ? ?] [? ? ?] [? ? ?]] ?]; reflexivity). split; [exact ER|].
  destruct (pose_mc L bdot M a T SP) as [MA _]. destruct (inv_ok L bdot HD HL M a T RM' SP) as (MI & VI & NI). assert (S : is_SO3 (tR T)) by apply SP.
  assert (MT : mc L bdot 512 (v3cols (gR (g_tinv (b64_arith L bdot) a))) (mT (tR (tinv T)))) by (apply mc_T; exact MI).
  pose proof (vc_mv L bdot HD HL M 512 535 _ _ _ _ RM' ltac:(lra) ltac:(lra) MT VI) as V. apply neg_vc in V.
  assert (EP : vneg (mvec (mT (tR (tinv T))) (tp (tinv T))) = tp T).
  { unfold tinv. cbn [tR tp]. rewrite mT_mT. replace (vneg (mvec (tR T) (vneg (mvec (mT (tR T)) (tp T))))) with (mvec (tR T) (mvec (mT (tR T)) (tp T))) by la_ring. apply SO3_vec_T. exact S. }
  rewrite EP in V. destruct V as (FV & EV & _). split; [exact FV|].
  assert (VA : vval (A := b64_arith L bdot) bval (gp a) = tp T) by (destruct SP as (_ & _ & (_ & _ & _ & E & _)); symmetry; exact E). rewrite VA.
  eapply Rle_trans; [exact EV|]. assert (B42 : bpow radix2 (-42) = 2048 * uu) by (unfold uu; change (-42)%Z with (11 + -53)%Z; rewrite bpow_plus; reflexivity). rewrite B42.
  pose proof uu_pos. assert (0 <= uu * M) by (apply Rmult_le_pos; lra). lra.
Qed.

(** so with positions up to 2^15 they compare equal to the identity *)
Lemma unit_close (x c : b64) v e : bfin x -> bfin c -> bval c = v -> Rabs v <= 1 -> Rabs (bval x - v) <= e -> e <= 99 / 10000000000 -> both_usual x c /\ within (1 - bpow radix2 (-50)) (1 / 1000000) (1 / 100000000) x c.
Proof.
  intros Fx Fc Ec Bv D E. rewrite <- Ec in *. assert (B1 : 1 <= bpow radix2 900) by (change 1 with (bpow radix2 0); apply bpow_le; lia). assert (B2 : 1 <= bpow radix2 1000) by (change 1 with (bpow radix2 0); apply bpow_le; lia).
  split; [repeat split; try assumption; lra|]. unfold within. pose proof (Rabs_pos (bval c)). assert (bpow radix2 (-50) <= 1 / 1000) by (cbn; lra). pose proof (bpow_gt_0 radix2 (-50)).
  assert (99 / 100 * (1 / 100000000 + 1 / 1000000 * Rabs (bval c)) <= (1 - bpow radix2 (-50)) * (1 / 100000000 + 1 / 1000000 * Rabs (bval c))) by (apply Rmult_le_compat_r; lra). lra.
Qed.
Theorem C117_cancel : forall L bdot M (a : gtf (b64_arith L bdot)) T, In bdot b_dots -> libm_ok L (bpow radix2 (-52)) -> bpow radix2 (-370) <= M <= bpow radix2 15 -> stored_pose L bdot M a T ->
  g_teq (b64_arith L bdot) (g_tmul (b64_arith L bdot) a (g_tinv (b64_arith L bdot) a)) (g_identity (b64_arith L bdot)) = true /\
  g_teq (b64_arith L bdot) (g_tmul (b64_arith L bdot) (g_tinv (b64_arith L bdot) a) a) (g_identity (b64_arith L bdot)) = true.
Proof.
  intros L bdot M a T HD HL RM SP. assert (RM' : bpow radix2 (-370) <= M <= bpow radix2 370) by (split; [lra|apply Rle_trans with (bpow radix2 15); [lra|apply bpow_le; lia]]).
  destruct (cancel_mc L bdot HD HL M a T RM' SP) as [K1 K2].
  assert (G : forall e : gtf (b64_arith L bdot), mc L bdot 1047 (gR e) I3 /\ vc L bdot (2 * M) 1072 (gp e) vzero -> g_teq (b64_arith L bdot) e (g_identity (b64_arith L bdot)) = true).
  { intros e [(((F00 & F01 & F02) & (F10 & F11 & F12) & (F20 & F21 & F22)) & EM & _) ((F0 & F1 & F2) & EV & _)].
    destruct (entry_frob _ _ EM) as ((E00 & E01 & E02) & (E10 & E11 & E12) & (E20 & E21 & E22)). destruct (entry_le (vsub (vval (A := b64_arith L bdot) bval (gp e)) vzero)) as (E0 & E1 & E2).
    cbn [msub SpecRound.mval vsub SpecRound.vval I3 vzero m00 m01 m02 m10 m11 m12 m20 m21 m22 vx vy vz] in *.
    assert (O1 : bfin (none1 (b64_arith L bdot)) /\ bval (none1 (b64_arith L bdot)) = 1) by (split; [reflexivity|vm_compute; lra]). assert (O0 : bfin (nzero (b64_arith L bdot)) /\ bval (nzero (b64_arith L bdot)) = 0) by (split; reflexivity). destruct O1 as [FO VO]. destruct O0 as [FZ VZ].
    pose proof uu_pos as UP. assert (U1 : 1047 * uu <= 99 / 10000000000) by (rewrite uu_val'; lra). 
    assert (U2 : 1072 * (uu * (2 * M)) <= 99 / 10000000000). { destruct RM as [_ RM]. change (bpow radix2 15) with 32768 in RM. assert (uu * M <= uu * 32768) by (apply Rmult_le_compat_l; lra). pose proof uu_val'. lra. }
    assert (Z1 : Rabs 0 <= 1) by (rewrite Rabs_R0; lra). assert (N1 : Rabs 1 <= 1) by (rewrite Rabs_R1; lra).
    assert (P0 : norm (vsub (vval (A := b64_arith L bdot) bval (gp e)) vzero) <= 99 / 10000000000) by lra.
    assert (H : t_each (A := b64_arith L bdot) (fun x y : b64 => both_usual x y /\ within (1 - bpow radix2 (-50)) (1 / 1000000) (1 / 100000000) x y) e (g_identity (b64_arith L bdot))).
    { unfold t_each, m_each, v_each, g_identity, g_I3, g_vzero. cbn [gR gp w0 w1 w2].
      split; [split; [|split]|]; (split; [|split]); cbv beta; (eapply unit_close; [eassumption|eassumption|eassumption|eassumption|eassumption|eassumption]). }
    apply (proj2 (C117_eq L bdot e (g_identity (b64_arith L bdot)) (t_each_impl (A := b64_arith L bdot) _ _ _ _ (fun x y H => proj1 H) H)) (t_each_impl (A := b64_arith L bdot) _ _ _ _ (fun x y H => proj2 H) H)). }
  split; apply G; assumption.
Qed.
Lemma zero_at (L : libm) (bdot : list b64 -> list b64 -> b64) (a : gtf (b64_arith L bdot)) : moved a vzero = vval (A := b64_arith L bdot) bval (gp a).
Proof. unfold moved. generalize (mval (A := b64_arith L bdot) bval (gR a)) (vval (A := b64_arith L bdot) bval (gp a)). intros. la_ring. Qed.
Lemma cols_at (L : libm) (bdot : list b64 -> list b64 -> b64) (a b : gtf (b64_arith L bdot)) u e0 e1 : norm (vsub (moved a vzero) (moved b vzero)) <= e0 -> norm (vsub (moved a u) (moved b u)) <= e1 ->
  norm (mvec (msub (mval (A := b64_arith L bdot) bval (gR a)) (mval (A := b64_arith L bdot) bval (gR b))) u) <= e0 + e1.
Proof.
  rewrite !zero_at. unfold moved. generalize (mval (A := b64_arith L bdot) bval (gR a)) (mval (A := b64_arith L bdot) bval (gR b)) (vval (A := b64_arith L bdot) bval (gp a)) (vval (A := b64_arith L bdot) bval (gp b)).
  intros X Y p q H0 H1. replace (mvec (msub X Y) u) with (vsub (vsub (vadd (mvec X u) p) (vadd (mvec Y u) q)) (vsub p q)) by la_ring. eapply Rle_trans; [apply norm_vsub_le|]. lra.
Qed.
(** isclose accepts what lies within the bound of C116 of the pose *)
Lemma back_close (L : libm) (bdot : list b64 -> list b64 -> b64) M rho (T posef : gtf (b64_arith L bdot)) pose (tol : b64) : stored_pose L bdot M posef pose -> bpow radix2 (-150) <= M <= bpow radix2 150 -> 1 <= rho <= 1000 -> whole T ->
  (forall u, norm (vsub (moved T u) (moved posef u)) <= sqrt_eps + rho * bpow radix2 (-21) * (M + norm u)) ->
  bfin tol -> 4 * sqrt_eps + rho * bpow radix2 (-19) * (M + 1) <= bval tol <= bpow radix2 900 -> g_tisclose (b64_arith L bdot) T posef tol = true.
Proof.
  intros SP RM RR [FM FV] D FT BT.
  assert (MP : 0 < M) by (pose proof (bpow_gt_0 radix2 (-150)); lra).
  assert (SE : 0 < sqrt_eps) by (unfold sqrt_eps; apply Rinv_0_lt_compat; apply pow_lt; lra).
  destruct (pose_mc L bdot M posef pose SP) as [MP1 VP1]. assert (SO : is_SO3 (tR pose)) by apply MP1.
  set (k := rho * bpow radix2 (-21)) in *. assert (K0 : 0 < k) by (unfold k; apply Rmult_lt_0_compat; [lra|apply bpow_gt_0]).
  assert (K4 : rho * bpow radix2 (-19) = 4 * k) by (unfold k; change (-19)%Z with (2 + -21)%Z; rewrite bpow_plus; change (bpow radix2 2) with 4; ring). rewrite K4 in BT.
  assert (KM : 0 < k * M) by (apply Rmult_lt_0_compat; lra).
  pose proof (D vzero) as D0. rewrite norm_vzero in D0.
  assert (NX : norm ex = 1) by (unfold norm, norm2; replace (LinAlg.dot ex ex) with 1 by (unfold LinAlg.dot, ex; cbn; ring); apply sqrt_1). assert (NY : norm ey = 1) by (unfold norm, norm2; replace (LinAlg.dot ey ey) with 1 by (unfold LinAlg.dot, ey; cbn; ring); apply sqrt_1). assert (NZ : norm ez = 1) by (unfold norm, norm2; replace (LinAlg.dot ez ez) with 1 by (unfold LinAlg.dot, ez; cbn; ring); apply sqrt_1).
  pose proof (cols_at L bdot T posef ex _ _ D0 (D ex)) as CX. pose proof (cols_at L bdot T posef ey _ _ D0 (D ey)) as CY. pose proof (cols_at L bdot T posef ez _ _ D0 (D ez)) as CZ. rewrite NX in CX. rewrite NY in CY. rewrite NZ in CZ.
  rewrite !zero_at in D0. 
  assert (B50 : bpow radix2 (-50) <= 1 / 1000) by (cbn; lra). pose proof (bpow_gt_0 radix2 (-50)) as B51.
  assert (BM : bval tol <= bpow radix2 900) by lra. assert (B9 : bpow radix2 900 <= bpow radix2 1000) by (apply bpow_le; lia). assert (B15 : bpow radix2 150 <= bpow radix2 900) by (apply bpow_le; lia).
  assert (B2 : 2 <= bpow radix2 900) by (change 2 with (bpow radix2 1); apply bpow_le; lia).
  destruct (mc_upto L bdot 512 _ _ ltac:(lra) MP1) as ((U00 & U01 & U02) & (U10 & U11 & U12) & (U20 & U21 & U22)).
  assert (G : forall (x y : b64) n, bfin x -> bfin y -> Rabs (bval y) <= bpow radix2 900 -> Rabs (bval x - bval y) <= n -> n <= 2 * sqrt_eps + 2 * (k * M) + k -> both_usual x y /\ within (1 - bpow radix2 (-50)) (1 / 100000) (bval tol) x y).
  { intros x y n Fx Fy By Bd Bn. assert (T1 : 999 / 1000 * bval tol <= (1 - bpow radix2 (-50)) * bval tol) by (apply Rmult_le_compat_r; lra).
    split; [repeat split; try assumption; lra|]. unfold within. pose proof (Rabs_pos (bval y)). assert (0 <= (1 - bpow radix2 (-50)) * (1 / 100000 * Rabs (bval y))) by (apply Rmult_le_pos; lra). lra. }
  assert (GM : forall x y n, bfin x -> upto 1 y -> Rabs (bval x - bval y) <= n -> n <= 2 * sqrt_eps + 2 * (k * M) + k -> both_usual x y /\ within (1 - bpow radix2 (-50)) (1 / 100000) (bval tol) x y).
  { intros x y n Fx [Fy By] Bd Bn. change (bpow radix2 1) with 2 in By. apply (G x y n); try assumption. lra. }
  destruct FM as ((F00 & F01 & F02) & (F10 & F11 & F12) & (F20 & F21 & F22)). destruct FV as (F0 & F1 & F2). destruct VP1 as ((Q0 & Q1 & Q2) & EV & NV).
  destruct (entry_le (vsub (vval (A := b64_arith L bdot) bval (gp T)) (vval (A := b64_arith L bdot) bval (gp posef)))) as (E0 & E1 & E2).
  destruct (entry_le (mvec (msub (mval (A := b64_arith L bdot) bval (gR T)) (mval (A := b64_arith L bdot) bval (gR posef))) ex)) as (X0 & X1 & X2).
  destruct (entry_le (mvec (msub (mval (A := b64_arith L bdot) bval (gR T)) (mval (A := b64_arith L bdot) bval (gR posef))) ey)) as (Y0 & Y1 & Y2).
  destruct (entry_le (mvec (msub (mval (A := b64_arith L bdot) bval (gR T)) (mval (A := b64_arith L bdot) bval (gR posef))) ez)) as (Z0 & Z1 & Z2).
  assert (EQ : vval (A := b64_arith L bdot) bval (gp posef) = tp pose) by (destruct SP as (_ & _ & (_ & _ & _ & E' & _)); symmetry; exact E').
  destruct (entry_le (vval (A := b64_arith L bdot) bval (gp posef))) as (P0 & P1 & P2). assert (NP : norm (vval (A := b64_arith L bdot) bval (gp posef)) <= M) by (rewrite EQ; exact NV). set (nq := norm (vval (A := b64_arith L bdot) bval (gp posef))) in *.
  set (nx := norm (mvec _ ex)) in *. set (ny := norm (mvec _ ey)) in *. set (nz := norm (mvec _ ez)) in *. set (np := norm (vsub _ _)) in D0, E0, E1, E2.
  unfold ex, ey, ez, mvec, msub in X0, X1, X2, Y0, Y1, Y2, Z0, Z1, Z2.
  cbn [SpecRound.mval vsub SpecRound.vval m00 m01 m02 m10 m11 m12 m20 m21 m22 vx vy vz] in *.
  assert (H : t_each (A := b64_arith L bdot) (fun x y : b64 => both_usual x y /\ within (1 - bpow radix2 (-50)) (1 / 100000) (bval tol) x y) T posef).
  { unfold t_each, m_each, v_each. split; [split; [|split]|]; (split; [|split]); cbv beta.
    1,4,7: apply (GM _ _ nx); [assumption|assumption| |lra].
    10,11,12: apply (G _ _ np); [assumption|assumption|eapply Rle_trans; [first [exact P0|exact P1|exact P2]|lra]|first [exact E0|exact E1|exact E2]|lra].
    4,6,8: apply (GM _ _ ny); [assumption|assumption| |lra].
    7,8,9: apply (GM _ _ nz); [assumption|assumption| |lra].
    all: match goal with |- Rabs (?a - ?b) <= _ => match goal with H : Rabs ?t <= _ |- _ => replace (a - b) with t by ring; exact H end end. }
  apply (proj2 (C117_isclose L bdot T posef tol (t_each_impl (A := b64_arith L bdot) _ _ _ _ (fun x y H => proj1 H) H) FT ltac:(split; [|lra]; apply Rle_trans with (bpow radix2 (-26)); [apply bpow_le; lia|]; change (bpow radix2 (-26)) with (/ 67108864); unfold sqrt_eps in *; lra)) (t_each_impl (A := b64_arith L bdot) _ _ _ _ (fun x y H => proj2 H) H)).
Qed.

(** over the reals the same program text is the model of C18 *)
(** isclose accepts the round trip of C116 when the tolerance covers its error *)
Theorem C117_trip : forall L (f : b64 -> b64) bdot argsort rf r posef pose lastf sols x1 x2 x3 x4 x5 x6 M rho h0 h1 h2 h3 h4 h5 p0 p1 p2 p3 p4 p5 p6 R06 v (tol : b64),
  In bdot b_dots -> libm_ok L (bpow radix2 (-52)) -> libm_total L -> libm_arc_ok L (bpow radix2 (-50)) -> libm_angle_ok L (bpow radix2 (-50)) -> libm_asin_ok f (bpow radix2 (-50)) ->
  opw r h0 h1 h2 h3 h4 h5 p0 p1 p2 p3 p4 p5 p6 -> wf_aux r -> stored_robot L bdot M rf r -> grtype rf = rtype r -> six_limits (grlower rf) (grupper rf) -> stored_pose L bdot M posef pose ->
  bpow radix2 (-150) <= M <= bpow radix2 150 -> 1002 / 1000 * extent r pose <= M -> 1 <= rho <= 1000 ->
  g_robot6_invkin (b64_arith L bdot) f b_rem argsort rf posef lastf = Ok sols -> In [x1; x2; x3; x4; x5; x6] sols ->
  M <= rho * norm (perp ey p2) -> M <= rho * norm (perp ey (vadd p3 p4)) -> M <= rho * norm (perp ey (vadd p2 (rotate h2 (bval x3) (vadd p3 p4)))) ->
  wrist_of r pose (vadd p6 p5) R06 v -> 1 <= rho * norm (perp (rotate h0 (bval x1) (rotate h1 (bval x2) (rotate h2 (bval x3) h3))) (mvec R06 h5)) ->
  bfin tol -> 4 * sqrt_eps + rho * bpow radix2 (-19) * (M + 1) <= bval tol <= bpow radix2 900 ->
  exists T, g_fwdkin (b64_arith L bdot) rf [x1; x2; x3; x4; x5; x6] false = Ok T /\ g_tisclose (b64_arith L bdot) T posef tol = true.
Proof.
  intros L f bdot argsort rf r posef pose lastf sols x1 x2 x3 x4 x5 x6 M rho h0 h1 h2 h3 h4 h5 p0 p1 p2 p3 p4 p5 p6 R06 v tol HD HL HT HA HG HF O W SR TF SX SP RM EX RR E I LA LB OFF WO OFW FT BT.
  destruct (C116_back L f bdot argsort rf r posef pose lastf sols x1 x2 x3 x4 x5 x6 M rho h0 h1 h2 h3 h4 h5 p0 p1 p2 p3 p4 p5 p6 R06 v HD HL HT HA HG HF O W SR TF SX SP RM EX RR E I LA LB OFF WO OFW) as (T & ET & WT & D).
  exists T. split; [exact ET|]. exact (back_close L bdot M rho T posef pose tol SP RM RR WT D FT BT).
Qed.

Theorem C117_ur_trip : forall L (f : b64 -> b64) bdot argsort rf r posef pose lastf sols x1 x2 x3 x4 x5 x6 M rho h p0 p1 p2 p3 p4 p5 p6 R06 v (tol : b64),
  In bdot b_dots -> libm_ok L (bpow radix2 (-52)) -> libm_total L -> libm_arc_ok L (bpow radix2 (-50)) -> libm_angle_ok L (bpow radix2 (-50)) -> libm_asin_ok f (bpow radix2 (-50)) ->
  ur r h p0 p1 p2 p3 p4 p5 p6 -> wf_aux r -> stored_robot L bdot M rf r -> grtype rf = rtype r -> stored_pose L bdot M posef pose ->
  bpow radix2 (-150) <= M <= bpow radix2 150 -> 1002 / 1000 * extent r pose <= M -> 1 <= rho <= 1000 ->
  g_ur_invkin (b64_arith L bdot) f b_rem argsort rf posef lastf = Ok sols -> In [x1; x2; x3; x4; x5; x6] sols -> Forall sane [x1; x2; x3; x4; x5; x6] ->
  M <= rho * norm (perp ey p2) -> M <= rho * norm (perp ey p3) -> M <= rho * norm (perp ey (vadd p2 (rotate h (bval x3) p3))) ->
  wrist_of r pose (vadd p6 p5) R06 v -> 1 <= rho * norm (perp (rotate ez (bval x1) h) (mvec R06 h)) ->
  bfin tol -> 4 * sqrt_eps + rho * bpow radix2 (-19) * (M + 1) <= bval tol <= bpow radix2 900 ->
  exists T, g_fwdkin (b64_arith L bdot) rf [x1; x2; x3; x4; x5; x6] true = Ok T /\ g_tisclose (b64_arith L bdot) T posef tol = true.
Proof.
  intros L f bdot argsort rf r posef pose lastf sols x1 x2 x3 x4 x5 x6 M rho h p0 p1 p2 p3 p4 p5 p6 R06 v tol HD HL HT HA HG HF O W SR TF SP RM EX RR E I SN LA LB OFF WO OFW FT BT. destruct (C116_ur_back L f bdot argsort rf r posef pose lastf sols x1 x2 x3 x4 x5 x6 M rho h p0 p1 p2 p3 p4 p5 p6 R06 v HD HL HT HA HG HF O W SR TF SP RM EX RR E I SN LA LB OFF WO OFW) as (T & ET & WT & D).
  exists T. split; [exact ET|]. exact (back_close L bdot M rho T posef pose tol SP RM RR WT D FT BT).
Qed.

Lemma real_near rt at_ x y : 0 <= rt -> 0 <= at_ -> g_near real_arith rt at_ x y = isclose rt at_ x y.
Proof.
  intros Hr Ha. unfold g_near, isclose, g_zero. cbn [nle nabs nsub nadd nmul real_arith]. rewrite real_lit0.
  assert (Z : Rleb (y - y) 0 = true /\ Rleb 0 (y - y) = true) by (split; apply Rleb_true; lra). destruct Z as [-> ->]. rewrite andb_true_r.
  destruct (Rleb (Rabs (x - y)) (at_ + rt * Rabs y)) eqn:E; [reflexivity|]. cbn [orb]. destruct (Rleb x y && Rleb y x)%bool eqn:Q; [|reflexivity].
  apply andb_true_iff in Q. destruct Q as [Q1 Q2]. apply Rleb_true in Q1. apply Rleb_true in Q2. exfalso. assert (Rleb (Rabs (x - y)) (at_ + rt * Rabs y) = true); [|congruence].
  apply Rleb_true. replace (x - y) with 0 by lra. rewrite Rabs_R0. pose proof (Rabs_pos y). assert (0 <= rt * Rabs y) by (apply Rmult_le_pos; lra). lra.
Qed.
Theorem C117_reals : forall a b tol, 0 <= tol -> g_teq real_arith (emb_t a) (emb_t b) = teq a b /\ g_tisclose real_arith (emb_t a) (emb_t b) tol = tisclose a b tol.
Proof.
  intros a b tol HT. unfold g_teq, g_tisclose, teq, tisclose, g_m_near, g_v_near, m_isclose, v_isclose, emb_t, emb_m, emb_v. cbn [gR gp w0 w1 w2 nlit real_arith row0 row1 row2 vx vy vz].
  rewrite !real_near by lra. split; rewrite <- !andb_assoc; reflexivity.
Qed.

(* ---- non-vacuity ---- *)
Definition b35 : b64 := b_lit 3 5.
Definition b45 : b64 := b_lit 4 5.
Lemma v35 : bfin b35 /\ Rabs (bval b35 - 3 / 5) <= bpow radix2 (-53).
Proof. split; [reflexivity|]. apply Rabs_le. split; vm_compute; lra. Qed.
Lemma v45 : bfin b45 /\ Rabs (bval b45 - 4 / 5) <= bpow radix2 (-53).
Proof. split; [reflexivity|]. apply Rabs_le. split; vm_compute; lra. Qed.
(** a turn about z by the angle of the 3-4-5 triangle, and a position along x *)
Definition turned_f L bdot (x : b64) : gtf (b64_arith L bdot) :=
  @GT (b64_arith L bdot) (ModelFloat.W3 (ModelFloat.W3 b35 (Bopp b45) b_zero) (ModelFloat.W3 b45 b35 b_zero) (b_int3 0 0 1)) (ModelFloat.W3 x b_zero b_zero).
Definition turned_r (x : R) : transform := Tf (M3 (3 / 5) (- (4 / 5)) 0 (4 / 5) (3 / 5) 0 0 0 1) (V3 x 0 0) None None.
Lemma turned_stored L bdot x M : bfin x -> Rabs (bval x) <= M -> stored_pose L bdot M (turned_f L bdot x) (turned_r (bval x)).
Proof.
  intros F B. destruct v35 as [F3 V3']. destruct v45 as [F4 V4']. assert (P : bpow radix2 (-53) <= bpow radix2 (-46)) by (apply bpow_le; lia). pose proof (bpow_gt_0 radix2 (-46)) as P0.
  assert (FO : bfin (Bopp b45)) by reflexivity. assert (VO : Rabs (bval (Bopp b45) - - (4 / 5)) <= bpow radix2 (-53)).
  { unfold bval. rewrite B2R_Bopp. fold (bval b45). replace (- bval b45 - - (4 / 5)) with (- (bval b45 - 4 / 5)) by ring. rewrite Rabs_Ropp. exact V4'. }
  split; [split; unfold turned_r, mmul, mT, I3, det; cbn [tR m00 m01 m02 m10 m11 m12 m20 m21 m22]; [f_equal; field|field]|]. split.
  - unfold turned_f, turned_r. cbn [gR tR b_int3]. repeat split; cbn [w0 w1 w2 m00 m01 m02 m10 m11 m12 m20 m21 m22]; try assumption; try reflexivity; try lra; apply (pin_near 0 ltac:(lia)) || apply (pin_near 1 ltac:(lia)).
  - unfold turned_f, turned_r. cbn [gp tp]. repeat split; try assumption; try reflexivity. apply norm_le_sq; [eapply Rle_trans; [apply Rabs_pos|exact B]|]. unfold LinAlg.dot. cbn [vx vy vz]. apply Rabs_le_inv in B. nra.
Qed.
(** T * T.inv() and T.inv() * T for a position of 1000 compare equal to the identity; a position of 3 * 2^40 is too far for that *)
Example C117_ex : forall L bdot, In bdot b_dots -> libm_ok L (bpow radix2 (-52)) -> let a := turned_f L bdot (b_ofZ 1000) in
  stored_pose L bdot 1024 a (turned_r (bval (b_ofZ 1000))) /\ a <> g_identity (b64_arith L bdot) /\
  g_teq (b64_arith L bdot) (g_tmul (b64_arith L bdot) a (g_tinv (b64_arith L bdot) a)) (g_identity (b64_arith L bdot)) = true /\
  t_each (A := b64_arith L bdot) both_usual a a /\ g_teq (b64_arith L bdot) a (g_identity (b64_arith L bdot)) = false.
Proof.
  intros L bdot HD HL a. assert (V : bfin (b_ofZ 1000) /\ bval (b_ofZ 1000) = 1000) by (split; [reflexivity|vm_compute; lra]). destruct V as [F V].
  assert (S : stored_pose L bdot 1024 a (turned_r (bval (b_ofZ 1000)))) by (apply turned_stored; [exact F|rewrite V; apply Rabs_le; lra]).
  assert (NE : g_teq (b64_arith L bdot) a (g_identity (b64_arith L bdot)) = false) by (vm_compute; reflexivity).
  split; [exact S|]. split; [|split; [|split]].
  - intros E. assert (T : g_teq (b64_arith L bdot) a a = true) by (vm_compute; reflexivity). rewrite E in T at 2. rewrite NE in T. discriminate T.
  - apply (C117_cancel L bdot 1024 a (turned_r (bval (b_ofZ 1000))) HD HL); [|exact S]. change 1024 with (bpow radix2 10). split; apply bpow_le; lia.
  - assert (G : forall x : b64, bfin x -> Rabs (bval x) <= 1000 -> both_usual x x).
    { intros x Fx Bx. repeat split; try assumption; [apply Rle_trans with (bpow radix2 10); [change (bpow radix2 10) with 1024; lra|apply bpow_le; lia]|]. replace (bval x - bval x) with 0 by ring. rewrite Rabs_R0. apply bpow_ge_0. }
    destruct v35 as [F3 V3']. destruct v45 as [F4 V4']. assert (B53 : bpow radix2 (-53) <= 1) by (change 1 with (bpow radix2 0); apply bpow_le; lia). apply Rabs_le_inv in V3', V4'.
    assert (G3 : both_usual b35 b35) by (apply G; [exact F3|apply Rabs_le; lra]). assert (G4 : both_usual b45 b45) by (apply G; [exact F4|apply Rabs_le; lra]).
    assert (GO : both_usual (Bopp b45) (Bopp b45)) by (apply G; [reflexivity|]; unfold bval; rewrite B2R_Bopp; fold (bval b45); apply Rabs_le; lra).
    assert (G0 : both_usual b_zero b_zero) by (apply G; [reflexivity|]; change (bval b_zero) with 0; rewrite Rabs_R0; lra). assert (G0' : both_usual (b_ofZ 0) (b_ofZ 0)) by exact G0.
    assert (G1 : both_usual (b_ofZ 1) (b_ofZ 1)) by (apply G; [reflexivity|]; destruct (pin_int 1 ltac:(lia)) as [_ ->]; rewrite Rabs_R1; lra).
    assert (GK : both_usual (b_ofZ 1000) (b_ofZ 1000)) by (apply G; [exact F|rewrite V; apply Rabs_le; lra]).
    split; [split; [|split]|]; (split; [|split]); assumption.
  - exact NE.
Qed.
Theorem C117_far_refuted : forall bdot L, In bdot b_dots -> let a := turned_f L bdot (b_ofZ (3 * 2 ^ 40)) in
  stored_pose L bdot (bpow radix2 42) a (turned_r (bval (b_ofZ (3 * 2 ^ 40)))) /\
  g_teq (b64_arith L bdot) (g_tmul (b64_arith L bdot) a (g_tinv (b64_arith L bdot) a)) (g_identity (b64_arith L bdot)) = false.
Proof.
  intros bdot L HD a. assert (V : bfin (b_ofZ (3 * 2 ^ 40)) /\ bval (b_ofZ (3 * 2 ^ 40)) = 3 * bpow radix2 40) by (split; [reflexivity|vm_compute; lra]). destruct V as [F V]. split.
  - apply turned_stored; [exact F|]. rewrite V. pose proof (bpow_gt_0 radix2 40). assert (E : bpow radix2 42 = 4 * bpow radix2 40) by (replace 42%Z with (2 + 40)%Z by lia; rewrite bpow_plus; reflexivity). rewrite E. apply Rabs_le. lra.
  - unfold a. cbn [In b_dots] in HD. repeat (destruct HD as [<- | HD]; [vm_compute; reflexivity|]). contradiction.
Qed.
(** a Transform with NaN differs from itself *)
Theorem C117_nan_refuted : forall L bdot, exists a : gtf (b64_arith L bdot), g_teq (b64_arith L bdot) a a = false.
Proof. intros L bdot. exists (turned_f L bdot B754_nan). vm_compute. reflexivity. Qed.
(** the run of C116_ex, with a tolerance of 1/100 *)
Example C117_trip_ex : forall bdot, In bdot b_dots -> exists x T,
  g_robot6_invkin (b64_arith pin_libm bdot) pin_asin b_rem (fun _ => []) (pin_rf bdot) (pin_pose bdot) None = Ok [x] /\
  g_fwdkin (b64_arith pin_libm bdot) (pin_rf bdot) x false = Ok T /\ g_tisclose (b64_arith pin_libm bdot) T (pin_pose bdot) (b_lit 1 100) = true.
Proof.
  intros bdot HD. destruct (C116_ex bdot HD) as (x & T & E & ET & WT & D). exists x, T. split; [exact E|]. split; [exact ET|].
  assert (V : bfin (b_lit 1 100) /\ 99 / 10000 <= bval (b_lit 1 100) <= 1) by (split; [reflexivity|split; vm_compute; lra]). destruct V as [F V].
  apply (back_close pin_libm bdot 32 11 T (pin_pose bdot) pin_goal); try assumption; [apply pin_posed; lra|change 32 with (bpow radix2 5); split; apply bpow_le; lia|lra|].
  split; [|apply Rle_trans with 1; [lra|]; change 1 with (bpow radix2 0); apply bpow_le; lia].
  assert (S4 : sqrt_eps <= / 1000000) by (unfold sqrt_eps; apply Rinv_le_contravar; cbn; lra). assert (B : bpow radix2 (-19) <= / 500000) by (cbn; lra). pose proof (bpow_gt_0 radix2 (-19)). nra.
Qed.
(** the run of C116_ur_ex, with a tolerance of 1/100 *)
Example C117_ur_trip_ex : forall bdot, In bdot b_dots -> exists x T,
  g_ur_invkin (b64_arith pinu_libm bdot) pin_asin b_rem (fun _ => []) (pinu_rf bdot) (pinu_pose bdot) None = Ok [x] /\
  g_fwdkin (b64_arith pinu_libm bdot) (pinu_rf bdot) x true = Ok T /\ g_tisclose (b64_arith pinu_libm bdot) T (pinu_pose bdot) (b_lit 1 100) = true.
Proof.
  intros bdot HD. destruct (C116_ur_ex bdot HD) as (x & T & E & ET & WT & D). exists x, T. split; [exact E|]. split; [exact ET|].
  assert (V : bfin (b_lit 1 100) /\ 99 / 10000 <= bval (b_lit 1 100) <= 1) by (split; [reflexivity|split; vm_compute; lra]). destruct V as [F V].
  apply (back_close pinu_libm bdot 32 11 T (pinu_pose bdot) pinu_goal); try assumption; [apply pinu_posed; lra|change 32 with (bpow radix2 5); split; apply bpow_le; lia|lra|].
  split; [|apply Rle_trans with 1; [lra|]; change 1 with (bpow radix2 0); apply bpow_le; lia].
  assert (S4 : sqrt_eps <= / 1000000) by (unfold sqrt_eps; apply Rinv_le_contravar; cbn; lra). assert (B : bpow radix2 (-19) <= / 500000) by (cbn; lra). pose proof (bpow_gt_0 radix2 (-19)). nra.
Qed.
(** an infinite position: equal to itself, not to the one with 1e300 *)
Example C117_special_ex : forall L bdot, let a := turned_f L bdot (B754_infinity false) in
  g_teq (b64_arith L bdot) a a = true /\ g_teq (b64_arith L bdot) (turned_f L bdot (b_ofZ (10 ^ 300))) a = false /\ g_teq (b64_arith L bdot) (turned_f L bdot (B754_infinity true)) a = false.
Proof. intros L bdot a. unfold a. split; [|split]; vm_compute; reflexivity. Qed.
Print Assumptions C117_special.
Print Assumptions C117_special_isclose.
Print Assumptions C117_eq.
Print Assumptions C117_isclose.
Print Assumptions C117_self.
Print Assumptions C117_inverse.
Print Assumptions C117_inv_inv.
Print Assumptions C117_cancel.
Print Assumptions C117_trip.
Print Assumptions C117_reals.
Print Assumptions C117_far_refuted.
Print Assumptions C117_nan_refuted.
Print Assumptions C117_ex.
Print Assumptions C117_trip_ex.
Print Assumptions C117_ur_trip.
Print Assumptions C117_ur_trip_ex.
