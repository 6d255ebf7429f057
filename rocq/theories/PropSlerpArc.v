(** Property C113: in binary64, slerp returns a point of the shorter arc, up to rounding over the sine of the angle. *)
From Coq Require Import Reals ZArith List Bool Lra Lia.
From Flocq Require Import Core.Core IEEE754.BinarySingleNaN.
From Verif Require Import LinAlg RealAux Py FactsReal ModelFloat FactsB64 FactsExact PropB64 PropPi PropSlerp SpecSlerp64 FactsAngle FactsArc4.
Import ListNotations.
Open Scope R_scope.

Theorem C113_on_the_arc : forall L dot (a b c d a' b' c' d' t : b64), In dot b_dots -> slerp_libm L ->
  Forall (upto 400) [a; b; c; d] -> Forall (upto 400) [a'; b'; c'; d'] ->
  bpow radix2 (-800) <= sq4 (bval a) (bval b) (bval c) (bval d) -> bpow radix2 (-800) <= sq4 (bval a') (bval b') (bval c') (bval d') ->
  b_le b_zero t = true -> b_le t (b_ofZ 1) = true ->
  bval (slerp_cos (b64_arith L dot) [a; b; c; d] [a'; b'; c'; d']) <= 1 ->
  exists (e f g h : b64) (s : R), g_slerp (b64_arith L dot) [a; b; c; d] [a'; b'; c'; d'] t = Ok [e; f; g; h] /\ (s = 1 \/ s = -1) /\
    let N := sqrt (sq4 (bval a) (bval b) (bval c) (bval d)) in let N' := sqrt (sq4 (bval a') (bval b') (bval c') (bval d')) in
    let P (x : b64) := s * bval x / N in let Q (x : b64) := bval x / N' in
    let cosine := dot4 (P a) (P b) (P c) (P d) (Q a') (Q b') (Q c') (Q d') in let th := acos cosine in
    - bpow radix2 (-47) <= cosine <= 1 /\
    ((th <= 1.1 / 1000000 /\ end_entry (P a) (bval e) /\ end_entry (P b) (bval f) /\ end_entry (P c) (bval g) /\ end_entry (P d) (bval h)) \/
     (9 / 10000000 <= th /\ arc_entry th (bval t) (P a) (Q a') (bval e) /\ arc_entry th (bval t) (P b) (Q b') (bval f) /\
      arc_entry th (bval t) (P c) (Q c') (bval g) /\ arc_entry th (bval t) (P d) (Q d') (bval h))).
Proof.
  intros L dot a b c d a' b' c' d' t HD HL HF HF' HS HS' T0 T1 HC.
  destruct (slerp_ends_ok L dot a b c d a' b' c' d' HD HF HF' HS HS') as (e & f & g & h & e' & f' & g' & h' & E & F & F' & U & U' & D & FC & EC).
  destruct (ends_near L dot a b c d a' b' c' d' HD HF HF' HS HS') as (s & HSg & EN). specialize (EN _ _ _ _ _ _ _ _ E).
  set (N := sqrt (sq4 (bval a) (bval b) (bval c) (bval d))) in *. set (N' := sqrt (sq4 (bval a') (bval b') (bval c') (bval d'))) in *.
  destruct EN as (UA & UB & NA & NB).
  unfold slerp_cos in HC. rewrite E in HC. cbn [fst snd ndot b64_arith] in HC.
  pose proof uu_val as V. pose proof uu_pos as P. assert (US : 0 <= uu <= 1 / 1000000000000000) by lra.
  assert (Ft : bfin t) by (apply (b_le_fin b_zero t T0); [reflexivity | exists (b_ofZ 1); split; [vm_compute; reflexivity | exact T1]]).
  assert (Bt : 0 <= bval t <= 1).
  { pose proof T0 as T0'. pose proof T1 as T1'. apply b_le_val in T0'; [|reflexivity | exact Ft]. apply b_le_val in T1'; [|exact Ft | vm_compute; reflexivity].
    change (bval b_zero) with 0 in T0'. replace (bval (b_ofZ 1)) with 1 in T1' by (vm_compute; lra). lra. }
  set (A := b64_arith L dot) in *. set (cs := dot [e; f; g; h] [e'; f'; g'; h']) in *.
  assert (G : g_slerp A [a; b; c; d] [a'; b'; c'; d'] t =
    let th := m_acos L cs in
    if b_lt (Babs th) (b_lit 1 1000000) then Ok [e; f; g; h]
    else
      let q := l_div A (l_add A (l_scale A (m_sin L (b_mul (b_sub (b_lit 1 1) t) th)) [e; f; g; h]) (l_scale A (m_sin L (b_mul t th)) [e'; f'; g'; h'])) (m_sin L th) in
      Ok (l_div A q (l_norm A q))).
  { rewrite slerp_via_ends, E. cbn [fst snd].
    change (nle A (nzero A) t) with (b_le b_zero t). change (nle A t (none1 A)) with (b_le t (b_lit 1 1)).
    assert (E1 : b_lit 1 1 = b_ofZ 1) by (apply B2SF_inj; vm_compute; reflexivity).
    rewrite T0. rewrite E1 at 1. rewrite T1. reflexivity. }
  rewrite G. clear G. cbv zeta beta.
  assert (CB : Rabs (bval cs) <= 1) by (apply Rabs_le_inv in EC; apply Rabs_le; lra).
  destruct HL as [LS LA]. destruct (LA cs FC CB) as [Fth Eth]. set (al := m_acos L cs) in *.
  set (pa := s * bval a / N) in *. set (pb := s * bval b / N) in *. set (pc := s * bval c / N) in *. set (pd := s * bval d / N) in *.
  set (qa := bval a' / N') in *. set (qb := bval b' / N') in *. set (qc := bval c' / N') in *. set (qd := bval d' / N') in *.
  pose proof (dots_near uu _ _ _ _ _ _ _ _ _ _ _ _ _ _ _ _ US UA UB NA NB) as DN.
  pose proof (dot4_am pa pb pc pd qa qb qc qd) as DM. rewrite UA, UB in DM.
  set (cc := dot4 pa pb pc pd qa qb qc qd) in *. set (th := acos cc).
  assert (CCB : -1 <= cc <= 1) by (apply Rabs_le_inv in DM; lra).
  assert (CT : cos th = cc) by (apply cos_acos; exact CCB).
  assert (C0 : - (40 * uu) <= cc) by (apply Rabs_le_inv in DN; lra).
  assert (B47 : bpow radix2 (-47) = 64 * uu) by (rewrite V; cbn; lra).
  assert (HA : Rabs (cos (bval al) - cos th) <= 42 * uu).
  { rewrite CT. pose proof (cos_lip (bval al) (acos (bval cs))) as CL. apply Rabs_le_inv in CB. rewrite cos_acos in CL by lra.
    replace (cos (bval al) - cc) with ((cos (bval al) - bval cs) + ((bval cs - dot4 (bval e) (bval f) (bval g) (bval h) (bval e') (bval f') (bval g') (bval h')) + (dot4 (bval e) (bval f) (bval g) (bval h) (bval e') (bval f') (bval g') (bval h') - cc))) by ring.
    eapply Rle_trans; [apply Rabs_triang|]. eapply Rle_trans; [apply Rplus_le_compat_l; apply Rabs_triang|]. lra. }
  assert (AC : 0 <= acos (bval cs) <= 1.59) by (apply acos_16; apply Rabs_le_inv in EC, CB; lra).
  assert (TB : 0 <= th <= 1.59) by (apply acos_16; lra).
  assert (AB : - (4 * uu) <= bval al <= 1.5901) by (apply Rabs_le_inv in Eth; lra).
  pose proof PI2_3_2 as PH.
  destruct (b_lt (Babs al) (b_lit 1 1000000)) eqn:SM.
  { exists e, f, g, h, s. split; [reflexivity|]. split; [exact HSg|]. fold pa pb pc pd. fold cc. fold th. split; [lra|]. left. split.
    - apply b_lt_iff in SM; [|unfold bfin; rewrite is_finite_Babs; exact Fth | vm_compute; reflexivity]. unfold bval in SM at 1. rewrite B2R_Babs in SM. fold (bval al) in SM.
      assert (bval (b_lit 1 1000000) <= 1.0001 / 1000000) by (vm_compute; lra).
      pose proof (sin_gap _ _ (42 * uu) ltac:(lra) HA) as SG.
      assert (SA : sin (bval al) * sin (bval al) <= 1.0001 / 1000000 * (1.0001 / 1000000)).
      { assert (SL : Rabs (sin (bval al)) <= 1.0001 / 1000000) by (pose proof (sin_lip (bval al) 0) as SL; rewrite sin_0, !Rminus_0_r in SL; lra).
        rewrite <- (Rabs_right (sin (bval al) * sin (bval al))) by (apply Rle_ge, Rle_0_sqr). rewrite Rabs_mult. apply Rmult_le_compat; auto using Rabs_pos. }
      assert (ST : sin th <= 1.01 / 1000000).
      { apply Rnot_lt_le. intros C. assert (1.01 / 1000000 * (1.01 / 1000000) < sin th * sin th) by (apply Rmult_le_0_lt_compat; lra). lra. }
      pose proof (sin_lb16 th ltac:(lra)). pose proof (sin_small th ltac:(lra)). lra.
    - assert (B50 : bpow radix2 (-50) = 8 * uu) by (rewrite V; cbn; lra). unfold end_entry. rewrite B50. destruct NA as (n1 & n2 & n3 & n4). repeat split; lra. }
  apply b_lt_false in SM; [|unfold bfin; rewrite is_finite_Babs; exact Fth | vm_compute; reflexivity].
  assert (BT : 9.9 / 10000000 <= bval al <= 1.6).
  { unfold bval in SM at 2. rewrite B2R_Babs in SM. fold (bval al) in SM.
    assert (9.9 / 10000000 <= bval (b_lit 1 1000000)) by (vm_compute; lra).
    destruct (Rle_or_lt 0 (bval al)) as [Z|Z]; [rewrite Rabs_right in SM by lra | rewrite Rabs_left in SM by lra]; lra. }
  assert (SAL : 5.6 / 10000000 <= sin (bval al)) by (pose proof (sin_lb16 (bval al) ltac:(lra)); lra).
  (* the angles *)
  assert (SAL2 : 9.8 / 10000000 <= sin (bval al)).
  { destruct (Rle_or_lt (bval al) 0.1) as [Z | Z]; [pose proof (sin_small (bval al) ltac:(lra)); lra|pose proof (sin_lb16 (bval al) ltac:(lra)); lra]. }
  assert (TH : 9 / 10000000 <= th).
  { assert (HA' : Rabs (cos th - cos (bval al)) <= 42 * uu) by (rewrite Rabs_minus_sym; exact HA). pose proof (sin_gap _ _ (42 * uu) ltac:(lra) HA') as SG.
    apply Rnot_lt_le. intros C. pose proof (sin_ub th ltac:(lra)). assert (0 <= sin th) by (apply sin_ge_0; lra).
    assert (sin th * sin th <= 9 / 10000000 * (9 / 10000000)) by (apply Rmult_le_compat; lra).
    assert (9.8 / 10000000 * (9.8 / 10000000) <= sin (bval al) * sin (bval al)) by (apply Rmult_le_compat; lra). lra. }
  assert (STH : 0 < sin th) by (apply sin_gt_0; lra).
  assert (SS : sin th <= 1.01 * sin (bval al)).
  { pose proof (sin_gap _ _ (42 * uu) ltac:(lra) HA) as SG. assert (9.8 / 10000000 * (9.8 / 10000000) <= sin (bval al) * sin (bval al)) by (apply Rmult_le_compat; lra).
    apply Rnot_lt_le. intros C. assert (1.01 * sin (bval al) * (1.01 * sin (bval al)) < sin th * sin th) by (apply Rmult_le_0_lt_compat; lra). lra. }
  destruct (weights L t al (conj LS LA) Ft Bt Fth ltac:(lra)) as (Fs0 & Fs1 & Fsn & B0 & B1 & Bn & _).
  destruct (weights_near L t al (conj LS LA) Ft Bt Fth ltac:(lra)) as (W0 & W1 & Wn).
  set (s0 := m_sin L (b_mul (b_sub (b_lit 1 1) t) al)) in *. set (s1 := m_sin L (b_mul t al)) in *. set (sn := m_sin L al) in *.
  inversion F as [|? ? X1 Fs1']; inversion Fs1' as [|? ? X2 Fs2]; inversion Fs2 as [|? ? X3 Fs3]; inversion Fs3 as [|? ? X4 _]; subst.
  inversion F' as [|? ? X5 Fs5]; inversion Fs5 as [|? ? X6 Fs6]; inversion Fs6 as [|? ? X7 Fs7]; inversion Fs7 as [|? ? X8 _]; subst.
  destruct (sq4_entries (bval e) (bval f) (bval g) (bval h)) as (S1 & S2 & S3 & S4).
  destruct (sq4_entries (bval e') (bval f') (bval g') (bval h')) as (S5 & S6 & S7 & S8).
  assert (LE : forall x S, Rabs (S - 1) <= 14 * uu -> x * x <= S -> Rabs x <= 1.01) by (intros x S H1 H2; pose proof (abs_le_1 _ _ H1 H2); lra).
  assert (A0 : Rabs (bval s0) <= 1.01) by (apply Rabs_le; lra). assert (A1 : Rabs (bval s1) <= 1.01) by (apply Rabs_le; lra).
  assert (Bn' : 2.6 / 10000000 <= bval sn <= 1.01) by lra.
  destruct (blend_round s0 s1 e e' sn Fs0 Fs1 X1 X5 A0 A1 (LE _ _ U S1) (LE _ _ U' S5) Bn') as [Z1 Y1].
  destruct (blend_round s0 s1 f f' sn Fs0 Fs1 X2 X6 A0 A1 (LE _ _ U S2) (LE _ _ U' S6) Bn') as [Z2 Y2].
  destruct (blend_round s0 s1 g g' sn Fs0 Fs1 X3 X7 A0 A1 (LE _ _ U S3) (LE _ _ U' S7) Bn') as [Z3 Y3].
  destruct (blend_round s0 s1 h h' sn Fs0 Fs1 X4 X8 A0 A1 (LE _ _ U S4) (LE _ _ U' S8) Bn') as [Z4 Y4].
  cbn [l_scale l_add zip l_div map combine fst snd A nadd nmul ndiv b64_arith].
  set (x1 := b_div (b_add (b_mul s0 e) (b_mul s1 e')) sn) in *. set (x2 := b_div (b_add (b_mul s0 f) (b_mul s1 f')) sn) in *.
  set (x3 := b_div (b_add (b_mul s0 g) (b_mul s1 g')) sn) in *. set (x4 := b_div (b_add (b_mul s0 h) (b_mul s1 h')) sn) in *.
  (* before the last normalisation *)
  destruct (sq4_entries pa pb pc pd) as (P1 & P2 & P3 & P4). destruct (sq4_entries qa qb qc qd) as (Q1 & Q2 & Q3 & Q4). rewrite UA in P1, P2, P3, P4. rewrite UB in Q1, Q2, Q3, Q4.
  assert (ONE : forall x, x * x <= 1 -> Rabs x <= 1).
  { intros x Hx. apply Rnot_lt_le. intros C. assert (1 * 1 < Rabs x * Rabs x) by (apply Rmult_le_0_lt_compat; lra). rewrite <- Rabs_mult, Rabs_right in H by (apply Rle_ge, Rle_0_sqr). lra. }
  destruct NA as (n1 & n2 & n3 & n4). destruct NB as (m1 & m2 & m3 & m4).
  assert (BN : forall p q ee ee' y, p * p <= 1 -> q * q <= 1 -> Rabs (bval ee - p) <= 6.9 * uu -> Rabs (bval ee' - q) <= 6.9 * uu -> Rabs (y - (bval s0 * bval ee + bval s1 * bval ee')) <= 6.5 * uu ->
    Rabs (y / sin (bval al) - on_arc th (bval t) p q) <= 127 * uu / sin (bval al)).
  { intros p q ee1 ee2 y Hp Hq H1 H2 H3. apply (blend_near uu (bval t) (bval al) th p q (bval s0) (bval s1) (bval ee1) (bval ee2) y US Bt); try assumption; try lra; apply ONE; assumption. }
  pose proof (BN _ _ _ _ _ P1 Q1 n1 m1 Y1) as V1. pose proof (BN _ _ _ _ _ P2 Q2 n2 m2 Y2) as V2. pose proof (BN _ _ _ _ _ P3 Q3 n3 m3 Y3) as V3. pose proof (BN _ _ _ _ _ P4 Q4 n4 m4 Y4) as V4.
  set (k := bval sn / sin (bval al)).
  assert (K : 0.99 <= k <= 1.01).
  { apply Rabs_le_inv in Wn. unfold k. split; apply (Rmult_le_reg_r (sin (bval al))); try lra; unfold Rdiv; rewrite Rmult_assoc, Rinv_l, Rmult_1_r by lra; lra. }
  assert (KE : forall x, bval x * bval sn / sin (bval al) = bval x * k) by (intros; unfold k; field; lra). rewrite KE in V1, V2, V3, V4.
  set (eta := 127 * uu / sin (bval al)) in *.
  assert (ET : 0 <= eta <= 1 / 1000).
  { unfold eta. split; [apply Rmult_le_pos; [lra|left; apply Rinv_0_lt_compat; lra]|]. apply (Rmult_le_reg_r (sin (bval al))); [lra|]. unfold Rdiv. rewrite Rmult_assoc, Rinv_l, Rmult_1_r by lra. lra. }
  pose proof (arc_unit th (bval t) pa pb pc pd qa qb qc qd UA UB (eq_sym CT) ltac:(lra)) as AU.
  set (u1 := on_arc th (bval t) pa qa) in *. set (u2 := on_arc th (bval t) pb qb) in *. set (u3 := on_arc th (bval t) pc qc) in *. set (u4 := on_arc th (bval t) pd qd) in *.
  destruct (sq4_entries u1 u2 u3 u4) as (G1 & G2 & G3 & G4). rewrite AU in G1, G2, G3, G4.
  set (M2 := sq4 (bval x1) (bval x2) (bval x3) (bval x4)).
  assert (SQK : sq4 (bval x1 * k) (bval x2 * k) (bval x3 * k) (bval x4 * k) = M2 * (k * k)) by (unfold M2, sq4; ring).
  (* not tiny *)
  assert (KK : k * k <= 1.01 * 1.01) by (apply Rmult_le_compat; lra).
  assert (BIG : 0.5 <= M2).
  { pose proof (dot4_am u1 u2 u3 u4 (bval x1 * k) (bval x2 * k) (bval x3 * k) (bval x4 * k)) as AM. rewrite AU, SQK in AM.
    pose proof (dot_small _ _ _ _ _ _ _ _ _ AU V1 V2 V3 V4) as DS.
    replace (dot4 u1 u2 u3 u4 (bval x1 * k - u1) (bval x2 * k - u2) (bval x3 * k - u3) (bval x4 * k - u4)) with (dot4 u1 u2 u3 u4 (bval x1 * k) (bval x2 * k) (bval x3 * k) (bval x4 * k) - sq4 u1 u2 u3 u4) in DS by (unfold dot4, sq4; ring).
    rewrite AU in DS. apply Rabs_le_inv in AM, DS. apply Rnot_lt_le. intros C.
    assert (M2 * (k * k) <= 0.5 * (1.01 * 1.01)) by (apply Rmult_le_compat; try lra; [unfold M2, sq4; pose proof (Rle_0_sqr (bval x1)); pose proof (Rle_0_sqr (bval x2)); pose proof (Rle_0_sqr (bval x3)); pose proof (Rle_0_sqr (bval x4)); unfold Rsqr in *; lra|apply Rle_0_sqr]). lra. }
  destruct (normal4_near L dot x1 x2 x3 x4 HD) as (r1 & r2 & r3 & r4 & ER & M0 & _ & R1 & R2 & R3 & R4).
  { repeat apply Forall_cons; try apply Forall_nil; assumption. }
  { apply Rle_trans with (bpow radix2 (-1)); [apply bpow_le; lia|]. fold M2. replace (bpow radix2 (-1)) with 0.5 by (cbn; lra). exact BIG. }
  fold M2 in M0, R1, R2, R3, R4. set (M := sqrt M2) in *.
  assert (MM : M * M = M2) by (apply sqrt_sqrt; lra).
  exists r1, r2, r3, r4, s. split; [f_equal; exact ER|]. split; [exact HSg|]. fold pa pb pc pd. fold cc. fold th. split; [lra|]. right. split; [exact TH|].
  assert (NK : M * k * (M * k) = sq4 (bval x1 * k) (bval x2 * k) (bval x3 * k) (bval x4 * k)) by (rewrite SQK, <- MM; ring).
  assert (MK : 0 < M * k) by (apply Rmult_lt_0_compat; lra).
  pose proof (unit_near u1 u2 u3 u4 _ _ _ _ eta (M * k) AU ET V1 V2 V3 V4 MK NK) as UN.
  assert (FIN : forall (r x : b64) u, Rabs (bval r - bval x / M) <= 6.9 * uu -> u * u <= 1 -> Rabs (bval x * k - u) <= eta -> Rabs (bval r - u) <= bpow radix2 (-44) / sin th).
  { intros r x u H1 H2 H3. pose proof (UN (bval x * k) u (ONE _ H2) H3) as H4. replace (bval x * k / (M * k)) with (bval x / M) in H4 by (field; split; lra).
    replace (bval r - u) with ((bval r - bval x / M) + (bval x / M - u)) by ring. eapply Rle_trans; [apply Rabs_triang|].
    assert (B44 : bpow radix2 (-44) = 512 * uu) by (rewrite V; cbn; lra). rewrite B44.
    assert (IS : / sin (bval al) <= 1.01 * / sin th).
    { apply (Rmult_le_reg_r (sin (bval al))); [lra|]. rewrite Rinv_l by lra. apply (Rmult_le_reg_r (sin th)); [lra|]. replace (1.01 * / sin th * sin (bval al) * sin th) with (1.01 * sin (bval al)) by (field; lra). lra. }
    assert (IT : 1 <= / sin th) by (rewrite <- Rinv_1; apply Rinv_le_contravar; [exact STH|apply SIN_bound]).
    assert (uu * / sin (bval al) <= uu * (1.01 * / sin th)) by (apply Rmult_le_compat_l; lra). assert (uu * 1 <= uu * / sin th) by (apply Rmult_le_compat_l; lra).
    unfold eta, Rdiv in H4. unfold Rdiv. lra. }
  unfold arc_entry. repeat split; [apply (FIN r1 x1)|apply (FIN r2 x2)|apply (FIN r3 x3)|apply (FIN r4 x4)]; assumption.
Qed.

(** The points of the specification: unit length, at the angle t * th from the first quaternion and (1 - t) * th from the second. *)
Theorem C113_arc : forall th t a b c d x y z w, sq4 a b c d = 1 -> sq4 x y z w = 1 -> dot4 a b c d x y z w = cos th -> sin th <> 0 ->
  let u p q := on_arc th t p q in
  sq4 (u a x) (u b y) (u c z) (u d w) = 1 /\ dot4 (u a x) (u b y) (u c z) (u d w) a b c d = cos (t * th) /\
  dot4 (u a x) (u b y) (u c z) (u d w) x y z w = cos ((1 - t) * th) /\
  on_arc th 0 a x = a /\ on_arc th 1 a x = x.
Proof.
  intros th t a b c d x y z w A B C S u. split; [apply arc_unit; assumption|].
  assert (X : sin ((1 - t) * th) = sin th * cos (t * th) - cos th * sin (t * th)) by (replace ((1 - t) * th) with (th - t * th) by ring; apply sin_minus).
  assert (Y : cos ((1 - t) * th) = cos th * cos (t * th) + sin th * sin (t * th)) by (replace ((1 - t) * th) with (th - t * th) by ring; apply cos_minus).
  pose proof (sin2_cos2 th) as Z. unfold Rsqr in Z. unfold u. split; [|split; [|split]].
  - replace (dot4 (on_arc th t a x) (on_arc th t b y) (on_arc th t c z) (on_arc th t d w) a b c d) with ((sin ((1 - t) * th) * sq4 a b c d + sin (t * th) * dot4 a b c d x y z w) / sin th) by (unfold dot4, sq4, on_arc; field; exact S).
    rewrite A, C, X. field. exact S.
  - replace (dot4 (on_arc th t a x) (on_arc th t b y) (on_arc th t c z) (on_arc th t d w) x y z w) with ((sin ((1 - t) * th) * dot4 a b c d x y z w + sin (t * th) * sq4 x y z w) / sin th) by (unfold dot4, sq4, on_arc; field; exact S).
    rewrite B, C, X, Y. apply (Rmult_eq_reg_r (sin th)); [|exact S]. unfold Rdiv. rewrite Rmult_assoc, Rinv_l, Rmult_1_r by exact S.
    replace (((sin th * cos (t * th) - cos th * sin (t * th)) * cos th + sin (t * th) * 1)) with (sin th * cos (t * th) * cos th + sin (t * th) * (1 - cos th * cos th)) by ring.
    replace (1 - cos th * cos th) with (sin th * sin th) by lra. ring.
  - unfold on_arc. replace ((1 - 0) * th) with th by ring. replace (0 * th) with 0 by ring. rewrite sin_0. field. exact S.
  - unfold on_arc. replace ((1 - 1) * th) with 0 by ring. replace (1 * th) with th by ring. rewrite sin_0. field. exact S.
Qed.
Example C113_arc_ex : sq4 1 0 0 0 = 1 /\ sq4 0 1 0 0 = 1 /\ dot4 1 0 0 0 0 1 0 0 = cos (PI / 2) /\ sin (PI / 2) <> 0.
Proof. unfold sq4, dot4. rewrite cos_PI2, sin_PI2. repeat split; lra. Qed.

(** (3, 1, -2, 1) and (1, 2, 2, -7), half way: the hypotheses of C113_on_the_arc are those of C80_unit; the dot product is
    -6, so the first quaternion changes sign, and the angle is more than one radian. *)
Example C113_ex : forall dot, In dot b_dots ->
  exists e f g h : b64, g_slerp (b64_arith near_libm dot) (b_vec [3;1;-2;1]%Z) (b_vec [1;2;2;-7]%Z) (b_lit 1 2) = Ok [e; f; g; h] /\
  exists th, 1 <= th <= 1.6 /\
    arc_entry th (1 / 2) (- 3 / sqrt 15) (1 / sqrt 58) (bval e) /\ arc_entry th (1 / 2) (- 1 / sqrt 15) (2 / sqrt 58) (bval f) /\
    arc_entry th (1 / 2) (2 / sqrt 15) (2 / sqrt 58) (bval g) /\ arc_entry th (1 / 2) (- 1 / sqrt 15) (- 7 / sqrt 58) (bval h).
Proof.
  intros dot HD. destruct (C80_unit_ex dot HD) as (H1 & H2 & H3 & H4 & H5 & H6 & H7). cbn [b_vec map] in H2, H3, H4, H7 |- *. destruct H4 as [H4 H4'].
  destruct (C113_on_the_arc near_libm dot _ _ _ _ _ _ _ _ _ HD H1 H2 H3 H4 H4' H5 H6 H7) as (e & f & g & h & s & E & HS & R). clear H2 H3 H4 H4' H5 H6 H7.
  exists e, f, g, h. split; [exact E|]. clear E.
  cbv zeta beta in R. replace (bval (b_ofZ 1)) with 1 in R by (vm_compute; lra). replace (bval (b_ofZ 3)) with 3 in R by (vm_compute; lra).
  replace (bval (b_ofZ 2)) with 2 in R by (vm_compute; lra). replace (bval (b_ofZ (-2))) with (-2) in R by (vm_compute; lra). replace (bval (b_ofZ (-7))) with (-7) in R by (vm_compute; lra).
  replace (bval (b_lit 1 2)) with (1 / 2) in R by (vm_compute; lra).
  replace (sq4 3 1 (-2) 1) with 15 in R by (unfold sq4; lra). replace (sq4 1 2 2 (-7)) with 58 in R by (unfold sq4; lra).
  set (n := sqrt 15) in *. set (m := sqrt 58) in *. destruct R as [[C0 C1] R].
  assert (N : 3.8 <= n <= 3.9). { split; [apply Rsqr_incr_0_var; [|apply sqrt_pos]|apply Rsqr_incr_0_var; [|lra]]; unfold n; rewrite Rsqr_sqrt by lra; unfold Rsqr; lra. }
  assert (M : 7.6 <= m <= 7.7). { split; [apply Rsqr_incr_0_var; [|apply sqrt_pos]|apply Rsqr_incr_0_var; [|lra]]; unfold m; rewrite Rsqr_sqrt by lra; unfold Rsqr; lra. }
  set (cc := dot4 _ _ _ _ _ _ _ _) in *.
  assert (CE : cc = - s * 6 / (n * m)) by (unfold cc, dot4; field; lra).
  assert (NM : 28.8 <= n * m <= 30.1). { split; [replace 28.8 with (28.8 * 1) by ring|]; nra. }
  assert (Q : 0.19 <= 6 / (n * m) <= 0.21). { split; apply (Rmult_le_reg_r (n * m)); try lra; unfold Rdiv; rewrite Rmult_assoc, Rinv_l, Rmult_1_r by lra; lra. }
  assert (B47 : bpow radix2 (-47) <= 0.01) by (cbn; lra).
  destruct HS as [-> | ->]. { replace (- (1) * 6 / (n * m)) with (- (6 / (n * m))) in CE by (unfold Rdiv; ring). exfalso. lra. }
  replace (- -1 * 6 / (n * m)) with (6 / (n * m)) in CE by (unfold Rdiv; ring).
  assert (TH : 1 <= acos cc <= 1.6).
  { split; [|pose proof (acos_16 cc ltac:(lra)); lra]. apply Rnot_lt_le. intros C. pose proof (acos_bound cc) as AB. pose proof PI2_3_2 as PH.
    pose proof (cos_decreasing_1 (acos cc) 1 ltac:(lra) ltac:(lra) ltac:(lra) ltac:(lra) C) as D. rewrite cos_acos in D by lra.
    pose proof (sin2_cos2 1) as Z. unfold Rsqr in Z. pose proof (SIN_bound 1). pose proof (sin_ub 1 ltac:(lra)).
    assert (K : 0.5 <= cos 1). { destruct (COS 1) as [KL _]; [lra|lra|]. eapply Rle_trans; [|exact KL]. unfold cos_lb, cos_approx, cos_term. cbn [sum_f_R0 Nat.mul Nat.add pow]. replace (INR (fact 0)) with 1 by (cbn; lra). replace (INR (fact 2)) with 2 by (cbn; lra). replace (INR (fact 4)) with 24 by (cbn; lra). replace (INR (fact 6)) with 720 by (rewrite INR_IZR_INZ; apply f_equal; reflexivity). lra. }
    lra. }
  destruct R as [[R _] | (_ & R1 & R2 & R3 & R4)]; [lra|]. exists (acos cc). split; [exact TH|].
  replace (-1 * 3 / n) with (- 3 / n) in R1 by (unfold Rdiv; ring). replace (-1 * 1 / n) with (- 1 / n) in R2, R4 by (unfold Rdiv; ring). replace (-1 * -2 / n) with (2 / n) in R3 by (unfold Rdiv; ring).
  repeat split; assumption.
Qed.
Print Assumptions C113_on_the_arc.
Print Assumptions C113_arc.
