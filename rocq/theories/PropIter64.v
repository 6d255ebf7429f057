(** Property C103: the iterative inverse kinematics in binary64. *)
From Coq Require Import Reals ZArith List Bool Lra Lia Psatz.
From Flocq Require Import Core.Core IEEE754.BinarySingleNaN.
From Verif Require Import LinAlg RealAux Py FactsReal FactsLinAlg ModelRot ModelInvkin PropReal PropJac FactsFloat FactsIter PropAngle SpecRot FactsRot FactsNorm SpecSub FactsSub ModelTransform ModelRobot ModelKin SpecKin FactsKin PropKin
  ModelFloat ModelFloat2 ModelFloat3 ModelFloat7 SpecRound FactsRound FactsB64 FactsExact PropNorm PropFloat FactsTrack FactsNear SpecArc SpecArc2 PropR2rot FactsRpy SpecEquiv PropIter FactsIter64 SpecMove PropMove.
Import ListNotations.
Open Scope R_scope.
Local Notation near := SpecArc2.near.
Local Notation small := SpecEquiv.small.

(* ---- what the loop returns ---- *)
Section Loop.
Context (A : arith) (nrem : num A -> num A -> num A) (pinv : list (gcol A) -> v3 (num A) -> v3 (num A) -> out (list (num A))).

Lemma g_step_inv r ptool pose Kp KR tol q b q' : length q = length (grtype r) ->
  g_iterative_step A pinv r ptool pose Kp KR tol q = Ok (b, q') -> length q' = length (grtype r) /\
  exists T, g_fwdkin A r q true = Ok T /\ (b = true -> q' = q /\ g_below A tol (g_turn_error A pose T) = true /\ g_below A tol (g_place_error A pose T) = true).
Proof.
  intros LQ H. unfold g_iterative_step in H. destruct (g_fwdkin A r q true) as [T|] eqn:E; [|discriminate]. cbn [bind] in H.
  destruct (g_jacobian A r ptool q true) as [J|]; [|discriminate]. cbn [bind] in H. destruct (pinv _ _ _) as [delta|]; [|discriminate]. cbn [bind] in H.
  destruct (g_below A tol (g_turn_error A pose T)) eqn:B1; cbn [andb] in H.
  - destruct (g_below A tol (g_place_error A pose T)) eqn:B2.
    + injection H as <- <-. split; [exact LQ|]. exists T. auto.
    + destruct (Nat.eqb_spec (length delta) (length (grtype r))) as [LD|]; [|discriminate]. injection H as <- <-. split; [rewrite map_length, combine_length; lia|]. exists T. split; [reflexivity | discriminate].
  - destruct (Nat.eqb_spec (length delta) (length (grtype r))) as [LD|]; [|discriminate]. injection H as <- <-. split; [rewrite map_length, combine_length; lia|]. exists T. split; [reflexivity | discriminate].
Qed.
Lemma g_loop_inv r ptool pose Kp KR tol m : forall q b q', length q = length (grtype r) ->
  g_iterative_loop A pinv r ptool pose Kp KR tol m q = Ok (b, q') -> length q' = length (grtype r) /\
  (b = true -> exists T, g_fwdkin A r q' true = Ok T /\ g_below A tol (g_turn_error A pose T) = true /\ g_below A tol (g_place_error A pose T) = true).
Proof.
  induction m as [|m IH]; intros q b q' LQ H; cbn [g_iterative_loop] in H.
  - injection H as <- <-. split; [exact LQ | discriminate].
  - destruct (g_iterative_step A pinv r ptool pose Kp KR tol q) as [[c p]|] eqn:E; [|discriminate]. cbn [bind fst snd] in H.
    destruct (g_step_inv _ _ _ _ _ _ _ _ _ LQ E) as (LP & T & ET & HT). destruct c.
    + injection H as <- <-. split; [exact LP|]. intros _. destruct (HT eq_refl) as (-> & B1 & B2). exists T. auto.
    + exact (IH p b q' LP H).
Qed.
Lemma map_out_nth {S U} (f : S -> out U) l : forall res, map_out f l = Ok res -> length res = length l /\ forall i x, nth_error l i = Some x -> exists y, nth_error res i = Some y /\ f x = Ok y.
Proof.
  induction l as [|a l IH]; intros res H; cbn [map_out] in H.
  - injection H as <-. split; [reflexivity|]. intros [|i] x X; discriminate.
  - destruct (f a) as [y|] eqn:EA; [|discriminate]. cbn [bind] in H. destruct (map_out f l) as [ys|] eqn:EL; [|discriminate]. injection H as <-.
    destruct (IH ys eq_refl) as [LL HL]. split; [cbn [length]; lia|]. intros [|i] x X; [injection X as <-; exists y; auto | exact (HL i x X)].
Qed.
Lemma free_some (z : gnormalizer A) joint theta o : gnlimits z = None -> g_normalize A nrem z joint theta = Ok o -> exists x, o = Some x.
Proof.
  intros Z H. rewrite normalize_cases, Z in H. cbn [bind g_start] in H. destruct (gnlast z) as [last|]; [|injection H as <-; eauto].
  destruct (index last joint) as [lj|]; [|discriminate]. cbn [bind] in H. destruct (g_turns_to A nrem lj theta) as [[|n|n]|]; injection H as <-; eauto.
Qed.
Lemma nth_combine_seq {U} (l : list U) i x : nth_error l i = Some x -> forall k, nth_error (combine (seq k (length l)) l) i = Some ((k + i)%nat, x).
Proof.
  revert i. induction l as [|a l IH]; intros [|i] H k; cbn [length seq combine nth_error] in *; try discriminate.
  - injection H as <-. rewrite Nat.add_0_r. reflexivity.
  - rewrite (IH i H (S k)). f_equal. f_equal. lia.
Qed.
Lemma somes (l : list (option (num A))) : Forall (fun o => exists x, o = Some x) l -> exists q, l = map Some q /\ flat_map (fun o => match o with Some x => [x] | None => [] end) l = q.
Proof. induction 1 as [|o l [x ->] F (q & -> & E)]; [exists []; auto|]. exists (x :: q). cbn [map flat_map app]. rewrite E. auto. Qed.

Lemma g_inv r ptool pose seed m Kp KR tol b q : g_iterative_invkin A nrem pinv r ptool pose seed m Kp KR tol = Ok (b, q) ->
  length seed = length (grtype r) /\ length q = length (grtype r) /\
  exists p, length p = length (grtype r) /\
    (b = true -> exists T, g_fwdkin A r p true = Ok T /\ g_below A tol (g_turn_error A pose T) = true /\ g_below A tol (g_place_error A pose T) = true) /\
    forall i x, nth_error p i = Some x -> exists y, nth_error q i = Some y /\ g_normalize A nrem (GN None (Some seed)) i x = Ok (Some y).
Proof.
  unfold g_iterative_invkin. destruct (Nat.eqb_spec (length seed) (length (grtype r))) as [LS|]; [|discriminate]. cbn [negb].
  destruct (g_iterative_loop A pinv r ptool pose Kp KR tol m seed) as [[c p]|] eqn:E; [|discriminate]. cbn [bind fst snd].
  destruct (Nat.eqb (length (grtype r)) 1); [discriminate|]. destruct (g_loop_inv _ _ _ _ _ _ _ _ _ _ LS E) as [LP HT]. rewrite <- LP.
  destruct (map_out _ _) as [os|] eqn:EO; [|discriminate]. cbn [bind]. intros H. injection H as <- <-.
  destruct (map_out_nth _ _ _ EO) as [LO HO]. rewrite combine_length, seq_length, Nat.min_id in LO.
  assert (FS : Forall (fun o => exists x, o = Some x) os).
  { apply Forall_forall. intros o IO. apply In_nth_error in IO. destruct IO as [i Ei].
    assert (Li : (i < length p)%nat) by (rewrite <- LO; apply nth_error_Some; rewrite Ei; discriminate).
    destruct (nth_error p i) as [x|] eqn:EX; [|apply nth_error_None in EX; lia].
    destruct (HO i _ (nth_combine_seq p i x EX 0)) as (y & Ey & Hy). rewrite Ei in Ey. injection Ey as <-. exact (free_some (GN None (Some seed)) _ _ _ eq_refl Hy). }
  destruct (somes os FS) as (q' & EQ & ->). subst os. rewrite map_length in LO. split; [congruence|]. split; [exact LO|]. exists p. split; [reflexivity|]. split; [exact HT|].
  intros i x EX. destruct (HO i _ (nth_combine_seq p i x EX 0)) as (y & Ey & Hy). rewrite nth_error_map in Ey. destruct (nth_error q' i) as [z|]; [|discriminate]. injection Ey as <-.
  exists z. auto.
Qed.
End Loop.

(* ---- finite results come from finite joints ---- *)
Section Fin.
Context (A : arith) (fin : num A -> Prop) (val : num A -> R) (u g w e : R) (SA : sound A fin val u g w e).
Lemma fin_rot h t : mfin (A := A) fin (g_rot A h t) -> fin t.
Proof.
  intros ((H & _) & _). unfold g_rot, v3zip in H. cbn [w0] in H. destruct (s_add _ _ _ _ _ _ _ SA _ _ H) as (_ & F & _). destruct (s_mul _ _ _ _ _ _ _ SA _ _ F) as (F1 & _).
  destruct (s_sub _ _ _ _ _ _ _ SA _ _ F1) as (_ & F2 & _). apply (s_cos _ _ _ _ _ _ _ SA) in F2. apply F2.
Qed.
Lemma fin_joint ty h p t T : tfin (A := A) fin (g_fk_step A ty h p t T) -> fin t.
Proof.
  intros [FR Fp]. destruct ty; cbn [g_fk_step gR gp] in *.
  - destruct (mm_err A fin val u g w e SA _ _ FR) as (_ & F & _). exact (fin_rot _ _ F).
  - destruct (add_err A fin val u g w e SA _ _ Fp) as (F1 & _). destruct (add_err A fin val u g w e SA _ _ F1) as (_ & F2 & _). destruct (scale_err A fin val u g w e SA _ _ F2) as (F & _). exact F.
  - destruct (mm_err A fin val u g w e SA _ _ FR) as (_ & F & _). exact (fin_rot _ _ F).
  - destruct (add_err A fin val u g w e SA _ _ Fp) as (F1 & _). destruct (add_err A fin val u g w e SA _ _ F1) as (_ & F2 & _). destruct (scale_err A fin val u g w e SA _ _ F2) as (F & _). exact F.
Qed.
Lemma fin_joints ty : forall H P theta T T', length theta = length ty -> g_fk_loop A ty H P theta T = Ok T' -> tfin (A := A) fin T' -> Forall fin theta.
Proof.
  induction ty as [|j ty IH]; intros H P theta T T' LT E F; cbn [g_fk_loop] in E; [destruct theta; [constructor | discriminate]|].
  destruct H as [|h H]; [discriminate|]. destruct P as [|pn P]; [discriminate|]. destruct theta as [|t theta]; [discriminate|].
  constructor; [|eapply IH; [injection LT; auto | exact E | exact F]].
  eapply fin_joint. eapply (fin_loop A fin val u g w e SA); eassumption.
Qed.
Lemma fin_aux rf T : tfin (A := A) fin (g_apply_aux A rf T) -> tfin (A := A) fin T.
Proof.
  unfold g_apply_aux. intros F.
  set (T1' := match grflange rf with Some F => g_tmul A T F | None => T end) in *.
  set (T2' := match grtool rf with Some W => g_tmul A T1' W | None => T1' end) in *.
  assert (FT : forall a b, tfin (A := A) fin (g_tmul A a b) -> tfin (A := A) fin a /\ tfin (A := A) fin b) by (intros a b; apply (fin_tmul A fin val u g w e SA)).
  assert (F2 : tfin (A := A) fin T2') by (destruct (grbase rf); [apply FT in F; tauto | exact F]).
  assert (F1 : tfin (A := A) fin T1') by (unfold T2' in F2; destruct (grtool rf); [apply FT in F2; tauto | exact F2]).
  unfold T1' in F1. destruct (grflange rf); [apply FT in F1; tauto | exact F1].
Qed.
Lemma fin_fwdkin r theta ignore T : length theta = length (grtype r) -> g_fwdkin A r theta ignore = Ok T -> tfin (A := A) fin T -> Forall fin theta.
Proof.
  intros LT E F. unfold g_fwdkin in E. destruct (g_check_limits A r theta ignore); [|discriminate]. cbn [bind] in E. destruct (grP r) as [|p0 P]; [discriminate|].
  destruct (g_fk_loop A (grtype r) (grH r) P theta (GT (g_I3 A) p0)) as [T1|] eqn:E1; [|discriminate]. injection E as <-.
  eapply fin_joints; [exact LT | exact E1|]. exact (fin_aux _ _ F).
Qed.
End Fin.

(* ---- the two tests ---- *)
Section Tests.
Context (L : libm) (bdot : list b64 -> list b64 -> b64) (HD : In bdot b_dots).
Context (HL : libm_ok L (bpow radix2 (-52))) (HA : libm_atan2_ok L (bpow radix2 (-50))).
Local Notation A := (b64_arith L bdot).
Local Notation vval := (vval (A := A) bval).
Local Notation mval := (mval (A := A) bval).

Lemma sub_err (a b : v3 b64) : vfin (A := A) bfin (g_vsub A a b) -> vfin (A := A) bfin a /\ vfin (A := A) bfin b /\
  norm (vsub (vval (g_vsub A a b)) (vsub (vval a) (vval b))) <= uu * norm (vsub (vval a) (vval b)) + 2 * (10 * ee).
Proof.
  assert (SA : sound A bfin bval uu (7 * uu) (bpow radix2 (-52)) (10 * ee)) by (apply b64_sound; assumption). intros (H0 & H1 & H2). unfold g_vsub, v3zip in *. cbn [w0 w1 w2] in *.
  destruct (s_sub _ _ _ _ _ _ _ SA _ _ H0) as (A0 & B0 & C0). destruct (s_sub _ _ _ _ _ _ _ SA _ _ H1) as (A1 & B1 & C1).
  destruct (s_sub _ _ _ _ _ _ _ SA _ _ H2) as (A2 & B2 & C2).
  split; [repeat split; assumption|]. split; [repeat split; assumption|]. pose proof uu_pos. pose proof ee_pos.
  apply norm_round_err; [lra | lra|]. repeat split; assumption.
Qed.
Lemma below_spec (tol : b64) (v : v3 b64) : bfin tol -> g_below A tol v = true -> vfin (A := A) bfin v /\ norm (vval v) <= 1733 / 1000 * bval tol.
Proof.
  intros Ft HB. assert (HB' : (b_lt (Babs (w0 v)) tol && b_lt (Babs (w1 v)) tol && b_lt (Babs (w2 v)) tol)%bool = true) by exact HB.
  apply andb_prop in HB'. destruct HB' as [HB' B2]. apply andb_prop in HB'. destruct HB' as [B0 B1].
  apply (abs_lt _ _ Ft) in B0. apply (abs_lt _ _ Ft) in B1. apply (abs_lt _ _ Ft) in B2.
  split; [repeat split; tauto|]. destruct B0 as [_ B0], B1 as [_ B1], B2 as [_ B2]. apply norm_entries; [|left; exact B0 | left; exact B1 | left; exact B2]. pose proof (Rabs_pos (bval (w0 v))). lra.
Qed.
Lemma place_ok (posef T' : gtf A) (tol : b64) Q err : bfin tol -> bpow radix2 (-1000) <= bval tol ->
  g_below A tol (g_place_error A posef T') = true ->
  tfin (A := A) bfin T' /\ (is_SO3 Q -> frob (msub (mval (gR T')) Q) <= err -> err <= 1 / 1000 ->
    norm (vsub (vval (gp T')) (vval (gp posef))) <= 2 * bval tol).
Proof.
  intros Ft Htol HB. destruct (below_spec _ _ Ft HB) as [FE NE]. unfold g_place_error in FE, NE.
  assert (SA : sound A bfin bval uu (7 * uu) (bpow radix2 (-52)) (10 * ee)) by (apply b64_sound; assumption).
  destruct (mv_err A bfin bval _ _ _ _ SA _ _ FE) as (FM & FS & EM). destruct (sub_err _ _ FS) as (Fp & _ & ES).
  pose proof uu_pos as U. pose proof uu_small as US. pose proof ee_pos as E0.
  split.
  { split; [|exact Fp]. destruct FM as ((? & ? & ?) & (? & ? & ?) & (? & ? & ?)). cbn [v3cols v3map w0 w1 w2] in *. repeat split; assumption. }
  intros SQ HF HE. apply norm_prod_err in EM; [|lra | lra].
  set (z := g_vsub A (gp T') (gp posef)) in *. set (y := g_mv A (v3cols (gR T')) z) in *. set (D := vsub (vval (gp T')) (vval (gp posef))) in *.
  change (mval (v3cols (gR T'))) with (mT (mval (gR T'))) in EM. rewrite frob_mT in EM. set (M := mval (gR T')) in *.
  assert (FM' : frob M <= 2 + err).
  { rewrite <- (madd_msub M Q). eapply Rle_trans; [apply frob_triangle|]. rewrite (frob_SO3 Q SQ). pose proof sqrt3_bounds. lra. }
  assert (SP : mvec (mT M) (vval z) = vadd (mvec (mT Q) (vval z)) (mvec (mT (msub M Q)) (vval z))) by la_ring.
  assert (NQ : norm (mvec (mT Q) (vval z)) = norm (vval z)) by (apply norm_SO3, SO3_T; exact SQ).
  assert (NR : norm (mvec (mT (msub M Q)) (vval z)) <= err * norm (vval z)).
  { eapply Rle_trans; [apply norm_mvec_le|]. rewrite frob_mT. apply Rmult_le_compat_r; [apply norm_nonneg | exact HF]. }
  assert (M1 : Rabs (-1) = 1) by (rewrite Rabs_left; lra).
  assert (LB : norm (vval z) <= norm (vval y) + norm (vsub (vval y) (mvec (mT M) (vval z))) + norm (mvec (mT (msub M Q)) (vval z))).
  { rewrite <- NQ. replace (mvec (mT Q) (vval z)) with (vadd (vadd (vval y) (vscale (-1) (vsub (vval y) (mvec (mT M) (vval z))))) (vscale (-1) (mvec (mT (msub M Q)) (vval z)))) by (rewrite SP; la_ring).
    eapply Rle_trans; [apply norm_triangle|]. rewrite norm_vscale, M1, Rmult_1_l. apply Rplus_le_compat_r.
    eapply Rle_trans; [apply norm_triangle|]. rewrite norm_vscale, M1, Rmult_1_l. lra. }
  pose proof (norm_nonneg (vval z)) as Z0.
  assert (G1 : 7 * uu * (frob M * norm (vval z)) <= 1 / 1000 * norm (vval z)).
  { replace (7 * uu * (frob M * norm (vval z))) with (7 * uu * frob M * norm (vval z)) by ring. apply Rmult_le_compat_r; [exact Z0|].
    apply Rle_trans with (7 * uu * 3); [apply Rmult_le_compat_l; lra | lra]. }
  assert (G2 : err * norm (vval z) <= 1 / 1000 * norm (vval z)) by (apply Rmult_le_compat_r; lra).
  assert (G3 : norm D <= norm (vval z) + norm (vsub (vval z) D)).
  { replace D with (vadd (vval z) (vscale (-1) (vsub (vval z) D))) at 1 by la_ring. eapply Rle_trans; [apply norm_triangle|]. rewrite norm_vscale, M1. lra. }
  assert (G4 : uu * norm D <= 1 / 1000 * norm D) by (apply Rmult_le_compat_r; [apply norm_nonneg | lra]).
  assert (TE : 1000 * ee <= bval tol).
  { eapply Rle_trans; [|exact Htol]. unfold ee. apply Rle_trans with (bpow radix2 10 * bpow radix2 (-1075)); [apply Rmult_le_compat_r; [apply bpow_ge_0 | cbn; lra]|]. rewrite <- bpow_plus. apply bpow_le. lia. }
  lra.
Qed.
End Tests.

Lemma entries_frob A (val : num A -> R) (fin : num A -> Prop) M Q e : frob (msub (mval (A := A) val M) Q) <= e ->
  (Rabs (val (w0 (w0 M)) - m00 Q) <= e /\ Rabs (val (w1 (w0 M)) - m01 Q) <= e /\ Rabs (val (w2 (w0 M)) - m02 Q) <= e) /\
  (Rabs (val (w0 (w1 M)) - m10 Q) <= e /\ Rabs (val (w1 (w1 M)) - m11 Q) <= e /\ Rabs (val (w2 (w1 M)) - m12 Q) <= e) /\
  (Rabs (val (w0 (w2 M)) - m20 Q) <= e /\ Rabs (val (w1 (w2 M)) - m21 Q) <= e /\ Rabs (val (w2 (w2 M)) - m22 Q) <= e).
Proof.
  intros H. assert (G : forall x, 0 <= frob2 (msub (mval (A := A) val M) Q) - x * x -> Rabs x <= e).
  { intros x X. eapply Rle_trans; [|exact H]. unfold frob. rewrite <- (sqrt_Rsqr_abs x). apply sqrt_le_1_alt. unfold Rsqr. lra. }
  (split; [|split]); (split; [|split]); apply G; unfold frob2, msub, mval; cbn [m00 m01 m02 m10 m11 m12 m20 m21 m22];
    repeat match goal with |- context [?a * ?a] => match a with (_ - _) => let y := fresh "y" in set (y := a); pose proof (Rle_0_sqr y) end end; unfold Rsqr in *; lra.
Qed.

(** If the search reports success, the last iterate p reaches the pose: the position within twice the tolerance and
    the rotation within the tolerance, up to rounding; or the orientation is a half turn away, for a tolerance above 9e-7.
    The result is p moved by whole turns, up to rounding. *)
Theorem C103_reached : forall L bdot d s pinv, libm_ok L (bpow radix2 (-52)) -> libm_atan2_ok L (bpow radix2 (-50)) -> In bdot b_dots -> 0 <= d ->
  bpow radix2 (-1000) <= s <= 1 ->
  let A := b64_arith L bdot in
  forall (rf : grobot A) r ptool (posef : gtf A) pose (seed : list b64) m Kp KR (tol : b64) q,
  represents (A := A) bfin bval d rf r -> wf_robot r -> wf_aux r -> rep_tf (A := A) bval d posef pose -> tfin (A := A) bfin posef ->
  let err := INR (length (rtype r) + 3) * (100 * d + bpow radix2 (-42)) in err <= bpow radix2 (-31) ->
  bfin tol -> bpow radix2 (-1000) <= bval tol <= 1 / 2 ->
  g_iterative_invkin A b_rem pinv rf ptool posef seed m Kp KR tol = Ok (true, q) ->
  exists p T k t, length p = length (rtype r) /\ Forall bfin p /\ fwdkin r (map bval p) true = Ok T /\ turned pose T k t /\
    norm (vsub (tp T) (tp pose)) <= 2 * bval tol + err * span s r (map bval p) /\
    (small (Rmax (bval tol) (2 / 1000000) + 40 * err) (vscale (sin (t / 2)) k) \/
     (sin t < bpow radix2 (-19) /\ cos t < 0 /\ 9 / 10000000 < bval tol)) /\
    length q = length p /\
    forall i (x y : b64), nth_error p i = Some x -> nth_error q i = Some y -> bfin y ->
      exists n, Rabs (bval y - (bval x + 2 * PI * IZR n)) <= uu * (3 * Rabs (bval x) + 24 * Rabs (IZR n) + 60).
Proof.
  intros L bdot d s pinv HL HA HD Hd Hs A rf r ptool posef pose seed m Kp KR tol q Hr W WA HP FP err Herr Ft Htol H.
  destruct (g_inv _ _ _ _ _ _ _ _ _ _ _ _ _ H) as (_ & LQ & p & LP & HT & HN). destruct (HT eq_refl) as (T' & E & B1 & B2). clear HT.
  destruct HP as (SP & DP & PP).
  destruct (place_ok L bdot HD HL posef T' tol I3 0 Ft (proj1 Htol) B2) as [FT _].
  assert (SA : sound A bfin bval uu (7 * uu) (bpow radix2 (-52)) (10 * ee)) by (apply b64_sound; assumption).
  pose proof (fin_fwdkin A bfin bval _ _ _ _ SA rf p true T' LP E FT) as Fp.
  assert (P31 : bpow radix2 (-31) = 1 / 2147483648) by (cbn; lra).
  assert (P42 : bpow radix2 (-42) = 2048 * uu) by (rewrite uu_val'; cbn; lra). pose proof uu_pos as U. pose proof uu_small as US.
  assert (N3 : 3 <= INR (length (rtype r) + 3)) by (rewrite plus_INR; pose proof (pos_INR (length (rtype r))); cbn [INR]; lra).
  assert (ERR : 300 * d + 6144 * uu <= err).
  { unfold err. rewrite P42. apply Rle_trans with (3 * (100 * d + 2048 * uu)); [lra|]. apply Rmult_le_compat_r; lra. }
  assert (D1 : 0 <= d <= 1 / 1000) by lra.
  destruct (C76_binary64 L bdot d s HL HD D1 Hs rf r p true T' Hr Fp E FT ltac:(fold err; lra)) as (T & EF & CR & CP). fold err in CR, CP.
  pose proof (C21_fwdkin_rigid r _ _ T W WA EF) as RT.
  destruct (turned_of pose T SP RT) as (k & t & Uk & Ht & EQ & TU).
  destruct (place_ok L bdot HD HL posef T' tol (tR T) err Ft (proj1 Htol) B2) as [_ NP]. specialize (NP RT CR ltac:(lra)).
  exists p, T, k, t. rewrite (rep_type _ _ _ _ _ Hr) in LP, LQ.
  split; [exact LP|]. split; [exact Fp|]. split; [exact EF|]. split; [exact TU|]. split.
  { set (v' := SpecRound.vval (A := A) bval (gp T')) in *.
    assert (NP' : norm (vsub v' (SpecRound.vval (A := A) bval (gp posef))) <= 2 * bval tol) by exact NP. rewrite PP in NP'.
    assert (CP' : norm (vsub v' (tp T)) <= err * span s r (map bval p)) by exact CP.
    replace (vsub (tp T) (tp pose)) with (vadd (vsub v' (tp pose)) (vscale (-1) (vsub v' (tp T)))) by la_ring.
    eapply Rle_trans; [apply norm_triangle|]. assert (M1 : Rabs (-1) = 1) by (rewrite Rabs_left; lra). rewrite norm_vscale, M1. lra. }
  split.
  { assert (ST : stored_matrix err (gR T') (tR T)).
    { destruct FT as [((F0 & F1 & F2) & (F3 & F4 & F5) & (F6 & F7 & F8)) _]. destruct (entries_frob A bval bfin _ _ _ CR) as ((E0 & E1 & E2) & (E3 & E4 & E5) & (E6 & E7 & E8)).
      (split; [|split]); (split; [|split]); split; assumption. }
    assert (SD : stored_matrix d (v3cols (gR posef)) (mT (tR pose))).
    { destruct FP as [((F0 & F1 & F2) & (F3 & F4 & F5) & (F6 & F7 & F8)) _]. destruct (entries_frob A bval bfin _ _ _ DP) as ((E0 & E1 & E2) & (E3 & E4 & E5) & (E6 & E7 & E8)).
      (split; [|split]); (split; [|split]); split; assumption. }
    pose proof (stored_mm L bdot d err _ _ _ _ HD ltac:(lra) ltac:(lra) (SO3_T _ SP) RT SD ST) as SM. rewrite EQ in SM.
    assert (P29 : bpow radix2 (-29) = 1 / 536870912) by (cbn; lra). rewrite P31 in Herr.
    assert (T0 : 0 < bval tol <= 1 / 2) by (pose proof (bpow_gt_0 radix2 (-1000)); lra).
    destruct (turn_read L bdot HD HL HA _ k t (2 * (d + err) + 9 * uu) tol Uk Ht ltac:(rewrite P29; split; lra) SM Ft T0 B1) as [(S0 & S1 & S2) | HH]; [left | right; exact HH].
    rewrite P42 in S0, S1, S2. repeat split; lra. }
  split; [exact (eq_trans LQ (eq_sym LP))|]. intros i x y EX EY FY. destruct (HN i x EX) as (y' & EY' & NY). rewrite EY in EY'. injection EY' as <-.
  exact (C87_whole_turns L bdot _ i x y NY FY).
Qed.
Print Assumptions C103_reached.

(* ---- over the reals the program is the model of C47 ---- *)
Theorem C103_reals : forall pinv (gpinv : list (gcol real_arith) -> v3 R -> v3 R -> out (list R)) r pose seed m Kp KR tol x,
  (forall J a b, gpinv (map emb_c J) (emb_v a) (emb_v b) = pinv J (V6 a b)) ->
  iterative_invkin pinv r pose seed m Kp KR tol = Ok x ->
  g_iterative_invkin real_arith remainder gpinv (emb_robot r) (option_map emb_v (rptool r)) (emb_t pose) seed m (emb_m Kp) (emb_m KR) tol = Ok x.
Proof.
  intros pinv gpinv r pose seed m Kp KR tol x HP H.
  assert (EB : forall v, g_below real_arith tol (emb_v v) = all_below tol v) by reflexivity.
  assert (ST : forall q y, iterative_step pinv r pose Kp KR tol q = Ok y -> g_iterative_step real_arith gpinv (emb_robot r) (option_map emb_v (rptool r)) (emb_t pose) (emb_m Kp) (emb_m KR) tol q = Ok y).
  { intros q y E. unfold iterative_step in E. unfold g_iterative_step. rewrite C76_reals, C86_reals.
    destruct (fwdkin r q true) as [T|]; [|discriminate]. cbn [bind emb_out] in *. destruct (robotjacobian r q true) as [J|]; [|discriminate]. cbn [bind PropJac.emb_cols] in *.
    destruct (R2rot (mmul (mT (tR pose)) (tR T))) as [[k th]|] eqn:ER; [|discriminate].
    assert (EC : forall M, v3cols (emb_m M) = emb_m (mT M)) by reflexivity.
    assert (ES : g_turn_error real_arith (emb_t pose) (emb_t T) = emb_v (vscale (sin (th / 2)) (axis_vec k))).
    { unfold g_turn_error. cbn [emb_t gR]. change (v3cols (emb_m (tR pose))) with (emb_m (mT (tR pose))). rewrite real_mm, (C83_reals _ _ _ ER). cbn [fst snd].
      replace (nlit real_arith 2 1) with 2 by (cbn; lra). reflexivity. }
    assert (EE : g_place_error real_arith (emb_t pose) (emb_t T) = emb_v (mvec (mT (tR T)) (vsub (tp T) (tp pose)))).
    { unfold g_place_error. cbn [emb_t gR gp]. rewrite real_vsub. change (v3cols (emb_m (tR T))) with (emb_m (mT (tR T))). apply real_mv. }
    assert (EJ : map (g_base_col real_arith (emb_m (mT (tR T)))) (map emb_c J) = map emb_c (to_tool_frame (tR T) J)).
    { unfold to_tool_frame. rewrite !map_map. apply map_ext. intros c. apply real_base_col. }
    rewrite ES, EE. match goal with |- context [gpinv ?x _ _] => replace x with (map emb_c (to_tool_frame (tR T) J)) by (symmetry; exact EJ) end.
    rewrite !real_mv, HP. destruct (pinv _ _) as [delta|]; [|discriminate]. cbn [bind] in *. rewrite !EB. exact E. }
  assert (LP : forall n q y, iterative_loop pinv r pose Kp KR tol n q = Ok y -> g_iterative_loop real_arith gpinv (emb_robot r) (option_map emb_v (rptool r)) (emb_t pose) (emb_m Kp) (emb_m KR) tol n q = Ok y).
  { induction n as [|n IH]; intros q y E; cbn [iterative_loop g_iterative_loop] in *; [exact E|].
    destruct (iterative_step pinv r pose Kp KR tol q) as [[c p]|] eqn:E1; [|discriminate]. rewrite (ST _ _ E1). cbn [bind fst snd] in *. destruct c; [exact E | exact (IH _ _ E)]. }
  unfold iterative_invkin in H. unfold g_iterative_invkin. change (grtype (emb_robot r)) with (rtype r).
  destruct (negb (Nat.eqb (length seed) (length (rtype r)))) eqn:EN; [discriminate|].
  match goal with |- (if ?b then _ else _) = _ => change b with (negb (Nat.eqb (length seed) (length (rtype r)))) end. rewrite EN.
  destruct (iterative_loop pinv r pose Kp KR tol m seed) as [[c p]|] eqn:E1; [|discriminate]. rewrite (LP _ _ _ E1). cbn [bind fst snd] in *.
  destruct (Nat.eqb (length (rtype r)) 1); [discriminate|].
  assert (EM : map_out (fun p => g_normalize real_arith remainder (@GN real_arith None (Some seed)) (fst p) (snd p)) (combine (seq 0 (length (rtype r))) p) =
               map_out (fun p => normalize (normalize_joints r (Some seed) true) (fst p) (snd p)) (combine (seq 0 (length (rtype r))) p)).
  { assert (ZN : @GN real_arith None (Some seed) = emb_norm (normalize_joints r (Some seed) true)) by (unfold emb_norm, normalize_joints; cbn [nlimits nlast]; destruct (rlower r), (rupper r); reflexivity).
    rewrite ZN. generalize (combine (seq 0 (length (rtype r))) p). intros l. induction l as [|a l IH]; [reflexivity|]. cbn [map_out]. rewrite C87_reals, IH. reflexivity. }
  etransitivity; [|exact H]. match goal with |- bind ?a _ = _ => replace a with (map_out (fun p => normalize (normalize_joints r (Some seed) true) (fst p) (snd p)) (combine (seq 0 (length (rtype r))) p)) by (symmetry; exact EM) end. reflexivity.
Qed.
Print Assumptions C103_reals.
