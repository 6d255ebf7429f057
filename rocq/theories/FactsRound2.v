(** Rounding errors of the Jacobian. *)
From Coq Require Import Reals List Bool Lra Lia.
From Verif Require Import LinAlg RealAux Py FactsReal FactsLinAlg ModelRot SpecRot FactsRot ModelTransform ModelRobot ModelKin SpecKin FactsKin
  ModelFloat ModelFloat2 FactsNorm SpecRound FactsRound FactsFloat SpecRound2.
Import ListNotations.
Open Scope R_scope.

Lemma split_vsub X m n v v' : vsub X (vsub v v') = vadd (vsub X (vsub m n)) (vsub (vsub m v) (vsub n v')).
Proof. la_ring. Qed.
Lemma norm_vsub_le a b : norm (vsub a b) <= norm a + norm b.
Proof.
  replace (vsub a b) with (vadd a (vneg b)) by la_ring. eapply Rle_trans; [apply norm_triangle|].
  replace (vneg b) with (vscale (-1) b) by la_ring. rewrite norm_vscale, (Rabs_left (-1)) by lra. lra.
Qed.
Lemma norm_cross_le a b : norm (cross a b) <= norm a * norm b.
Proof.
  unfold norm at 1. rewrite <- (sqrt_square (norm a * norm b)) by (apply Rmult_le_pos; apply norm_nonneg).
  apply sqrt_le_1_alt. rewrite lagrange.
  replace (norm a * norm b * (norm a * norm b)) with ((norm a * norm a) * (norm b * norm b)) by ring.
  assert (E : forall v, norm v * norm v = norm2 v) by (intros v; unfold norm; apply sqrt_sqrt, norm2_nonneg).
  rewrite !E. pose proof (Rle_0_sqr (dot a b)) as Q. unfold Rsqr in Q. lra.
Qed.
Lemma mvec_hat a b : mvec (hat a) b = cross a b. Proof. unfold hat. la_ring. Qed.

Section Jac.
Context (A : arith) (fin : num A -> Prop) (val : num A -> R) (u g w e d sg rho s : R).
Hypothesis SA : sound A fin val u g w e.
Hypothesis S6 : sound6 A fin val g e.
Hypothesis pos : 0 <= u /\ 0 <= g /\ 0 <= w /\ 0 <= e /\ 0 <= d.
Hypothesis sg_def : 3 * g + 3 * e <= sg /\ 2 * g + 2 * u <= sg /\ 3 * u <= sg.
Hypothesis s_pos : 0 < s <= 1.
Hypothesis e_small : e <= u * s.
Hypothesis rho_rot : forall hf h t, mfin fin (g_rot A hf t) -> rep_axis val d hf h ->
  frob (msub (mval val (g_rot A hf t)) (rot h (val t))) <= rho.
Hypothesis rho_d : d <= rho.
Notation vval := (vval val).
Notation mval := (mval val).
Notation vfin := (vfin fin).
Notation mfin := (mfin fin).
Notation tfin := (tfin fin).
Notation vclose := (vclose A val).
Notation mclose := (mclose A val).
Notation tclose := (tclose A val s).

Lemma vsub_err a b : vfin (g_vsub A a b) ->
  vfin a /\ vfin b /\
  vle (vabs (vsub (vval (g_vsub A a b)) (vsub (vval a) (vval b)))) (vadd (vscale u (vabs (vsub (vval a) (vval b)))) (vconst e)).
Proof.
  clear - SA. intros (H0 & H1 & H2). unfold g_vsub, v3zip in *. cbn [w0 w1 w2] in *.
  destruct (s_sub _ _ _ _ _ _ _ SA _ _ H0) as (A0 & B0 & C0). destruct (s_sub _ _ _ _ _ _ _ SA _ _ H1) as (A1 & B1 & C1).
  destruct (s_sub _ _ _ _ _ _ _ SA _ _ H2) as (A2 & B2 & C2).
  repeat split; assumption.
Qed.

Lemma vclose_sub c x y v v' L L' : 1 <= c -> s <= L -> s <= L' -> vfin (g_vsub A x y) -> vclose c x v L -> vclose c y v' L' ->
  vclose (c * (1 + sg)) (g_vsub A x y) (vsub v v') (L + L').
Proof.
  intros Hc HL HL' F Hx Hy. destruct (vsub_err _ _ F) as (_ & _ & E).
  apply norm_round_err in E; [|tauto|tauto].
  pose proof (norm_near A val _ _ _ _ Hx) as Fx. pose proof (norm_near A val _ _ _ _ Hy) as Fy.
  destruct Hx as [Hx Kx], Hy as [Hy Ky]. split; [|pose proof (norm_vsub_le v v'); lra].
  set (X := vval (g_vsub A x y)) in *. set (m := vval x) in *. set (n := vval y) in *.
  rewrite (split_vsub X m n v v'). eapply Rle_trans; [apply norm_triangle|].
  pose proof (norm_vsub_le (vsub m v) (vsub n v')) as T1. pose proof (norm_vsub_le m n) as T2.
  destruct pos as (P1 & P2 & P3 & P4 & P5).
  assert (T3 : u * norm (vsub m n) <= u * (c * (L + L'))) by (apply Rmult_le_compat_l; lra).
  assert (CL : s <= c * (L + L')) by nra.
  assert (T4 : u * s <= u * (c * (L + L'))) by (apply Rmult_le_compat_l; lra).
  assert (T5 : c * (L + L') * (3 * u) <= c * (L + L') * sg) by (apply Rmult_le_compat_l; lra).
  lra.
Qed.

(** the cross product, computed as a product with a skew matrix *)
Lemma hat_fin h : mfin (g_hat A h) -> vfin h /\ mval (g_hat A h) = hat (vval h).
Proof.
  clear - SA. intros ((_ & F01 & F02) & (F10 & _ & F12) & (F20 & F21 & _)). unfold g_hat in *. cbn [w0 w1 w2] in *.
  split; [repeat split; assumption|].
  unfold SpecRound.mval, SpecRound.vval, hat. cbn [w0 w1 w2 vx vy vz].
  rewrite (proj2 (s_zero _ _ _ _ _ _ _ SA)), (proj2 (s_neg _ _ _ _ _ _ _ SA _ F01)), (proj2 (s_neg _ _ _ _ _ _ _ SA _ F12)),
    (proj2 (s_neg _ _ _ _ _ _ _ SA _ F20)). reflexivity.
Qed.

Lemma vclose_cross a b h x h' v L : 1 <= a -> 1 <= b -> s <= L -> vfin (g_mv A (g_hat A h) x) -> vclose a h h' 1 -> vclose b x v L ->
  vclose (a * b * (1 + sg)) (g_mv A (g_hat A h) x) (mvec (hat h') v) L.
Proof.
  intros Ha Hb HL F Hh Hx. destruct (mv_err A fin val u g w e SA _ _ F) as (FM & _ & E).
  destruct (hat_fin _ FM) as [_ EH]. rewrite EH in E.
  apply norm_prod_err in E; [|tauto|tauto].
  pose proof (norm_near A val _ _ _ _ Hh) as Fh. pose proof (norm_near A val _ _ _ _ Hx) as Fx.
  destruct Hh as [Hh Kh], Hx as [Hx Kx]. rewrite frob_hat in E. rewrite !mvec_hat in *.
  split; [|eapply Rle_trans; [apply norm_cross_le|]; pose proof (norm_nonneg h'); pose proof (norm_nonneg v); nra].
  set (X := vval (g_mv A (g_hat A h) x)) in *. set (m := vval h) in *. set (n := vval x) in *.
  replace (vsub X (cross h' v)) with (vadd (vsub X (cross m n)) (vadd (cross (vsub m h') n) (cross h' (vsub n v)))) by la_ring.
  eapply Rle_trans; [apply norm_triangle|].
  pose proof (norm_triangle (cross (vsub m h') n) (cross h' (vsub n v))) as T1.
  pose proof (norm_cross_le (vsub m h') n) as T2. pose proof (norm_cross_le h' (vsub n v)) as T3.
  pose proof (Rmult_le_compat _ _ _ _ (norm_nonneg _) (norm_nonneg _) Hh Fx) as T4.
  pose proof (Rmult_le_compat _ _ _ _ (norm_nonneg _) (norm_nonneg _) Kh Hx) as T5.
  pose proof (Rmult_le_compat _ _ _ _ (norm_nonneg _) (norm_nonneg _) Fh Fx) as T6.
  pose proof sqrt2_bound as S2. destruct pos as (P1 & P2 & P3 & P4 & P5).
  assert (N0 : 0 <= norm m * norm n) by (apply Rmult_le_pos; apply norm_nonneg).
  assert (AB : 1 <= a * b) by nra. assert (ABL : L <= a * b * L) by nra.
  assert (T7 : sqrt 2 * (norm m * norm n) <= 2 * (a * b * L)) by nra.
  assert (T8 : g * (sqrt 2 * norm m * norm n) <= g * (2 * (a * b * L))) by (apply Rmult_le_compat_l; lra).
  assert (T9 : 2 * e <= a * b * L * (2 * u)).
  { assert (u * s <= u * (a * b * L)) by (apply Rmult_le_compat_l; lra). lra. }
  assert (T10 : a * b * L * (2 * g + 2 * u) <= a * b * L * sg) by (apply Rmult_le_compat_l; [nra | lra]).
  assert (T11 : 0 <= (a - 1) * (b * L)) by (apply Rmult_le_pos; [lra | nra]).
  lra.
Qed.

(** rows of the product with [[R, 0], [0, R]] *)
Lemma base_row_hi (r a l : v3 (num A)) :
  fin (ndot A [w0 r; w1 r; w2 r; nzero A; nzero A; nzero A] [w0 a; w1 a; w2 a; w0 l; w1 l; w2 l]) ->
  vfin r /\ vfin a /\ vfin l /\
  Rabs (val (ndot A [w0 r; w1 r; w2 r; nzero A; nzero A; nzero A] [w0 a; w1 a; w2 a; w0 l; w1 l; w2 l]) - dot (vval r) (vval a))
    <= g * dot (vabs (vval r)) (vabs (vval a)) + e.
Proof.
  clear - SA S6. intros F.
  pose (fa := fun i => match i with 0 => w0 r | 1 => w1 r | 2 => w2 r | _ => nzero A end%nat).
  pose (fb := fun i => match i with 0 => w0 a | 1 => w1 a | 2 => w2 a | 3 => w0 l | 4 => w1 l | _ => w2 l end%nat).
  destruct (S6 fa fb F) as [FF E].
  pose proof (FF 0%nat ltac:(lia)). pose proof (FF 1%nat ltac:(lia)). pose proof (FF 2%nat ltac:(lia)).
  pose proof (FF 3%nat ltac:(lia)). pose proof (FF 4%nat ltac:(lia)). pose proof (FF 5%nat ltac:(lia)).
  split; [unfold SpecRound.vfin; tauto|]. split; [unfold SpecRound.vfin; tauto|]. split; [unfold SpecRound.vfin; tauto|].
  unfold sum6 in E. cbn [fa fb map] in E. rewrite (proj2 (s_zero _ _ _ _ _ _ _ SA)), !Rmult_0_l, Rabs_R0, !Rplus_0_r in E.
  unfold dot, vabs, SpecRound.vval. cbn [vx vy vz]. rewrite <- !Rabs_mult. exact E.
Qed.
Lemma base_row_lo (r a l : v3 (num A)) :
  fin (ndot A [nzero A; nzero A; nzero A; w0 r; w1 r; w2 r] [w0 a; w1 a; w2 a; w0 l; w1 l; w2 l]) ->
  Rabs (val (ndot A [nzero A; nzero A; nzero A; w0 r; w1 r; w2 r] [w0 a; w1 a; w2 a; w0 l; w1 l; w2 l]) - dot (vval r) (vval l))
    <= g * dot (vabs (vval r)) (vabs (vval l)) + e.
Proof.
  clear - SA S6. intros F.
  pose (fa := fun i => match i with 3 => w0 r | 4 => w1 r | 5 => w2 r | _ => nzero A end%nat).
  pose (fb := fun i => match i with 0 => w0 a | 1 => w1 a | 2 => w2 a | 3 => w0 l | 4 => w1 l | _ => w2 l end%nat).
  destruct (S6 fa fb F) as [FF E].
  unfold sum6 in E. cbn [fa fb map] in E. rewrite (proj2 (s_zero _ _ _ _ _ _ _ SA)), !Rmult_0_l, Rabs_R0, !Rplus_0_l in E.
  unfold dot, vabs, SpecRound.vval. cbn [vx vy vz]. rewrite <- !Rabs_mult. exact E.
Qed.

(** [vclose_mv] for a product given by its error *)
Lemma vclose_prod a b M X x M' v L : 1 <= a -> 1 <= b -> s <= L ->
  vle (vabs (vsub X (mvec (mval M) (vval x)))) (vadd (vscale g (mvec (mabs (mval M)) (vabs (vval x)))) (vconst e)) ->
  mclose a M M' -> vclose b x v L -> norm (vsub X (mvec M' v)) <= (a * b * (1 + sg) - 1) * L.
Proof.
  intros Ha Hb HL E HM Hx.
  apply norm_prod_err in E; [|tauto|tauto].
  pose proof (frob_near A val _ _ _ HM) as FM. pose proof (norm_near A val _ _ _ _ Hx) as Fx. pose proof sqrt3_bounds as S3.
  destruct HM as [HM KM], Hx as [Hx Kx].
  set (m := mval M) in *. set (n := vval x) in *.
  rewrite (split_mvec X m n M' v). eapply Rle_trans; [apply norm_triangle|].
  pose proof (norm_triangle (mvec (msub m M') (vsub n v)) (vadd (mvec (msub m M') v) (mvec M' (vsub n v)))) as T1.
  pose proof (norm_triangle (mvec (msub m M') v) (mvec M' (vsub n v))) as T2.
  rewrite (norm_SO3 M' _ KM) in T2.
  pose proof (norm_mvec_le (msub m M') (vsub n v)) as T3. pose proof (norm_mvec_le (msub m M') v) as T3'.
  pose proof (Rmult_le_compat _ _ _ _ (frob_nonneg _) (norm_nonneg _) HM Hx) as T4.
  pose proof (Rmult_le_compat _ _ _ _ (frob_nonneg _) (norm_nonneg _) HM Kx) as T4'.
  pose proof (Rmult_le_compat _ _ _ _ (frob_nonneg _) (norm_nonneg _) FM Fx) as T5.
  destruct pos as (P1 & P2 & P3 & P4 & P5).
  assert (Q : (sqrt 3 + (a - 1)) * (b * L) <= 2 * (a * b * L)).
  { assert (sqrt 3 + (a - 1) <= 2 * a) by lra. assert (0 <= b * L) by nra.
    replace (2 * (a * b * L)) with ((2 * a) * (b * L)) by ring. apply Rmult_le_compat_r; lra. }
  assert (T6 : g * (frob m * norm n) <= g * (2 * (a * b * L))) by (apply Rmult_le_compat_l; lra).
  assert (AB : 1 <= a * b) by nra.
  assert (ABL : L <= a * b * L) by nra.
  assert (T7 : 2 * e <= a * b * L * (2 * u)).
  { assert (u * s <= u * (a * b * L)) by (apply Rmult_le_compat_l; lra). lra. }
  assert (T8 : a * b * L * (2 * g + 2 * u) <= a * b * L * sg) by (apply Rmult_le_compat_l; [nra | lra]).
  lra.
Qed.

Definition col_close (k : R) (cf : gcol A) (c : vec6) (L : R) : Prop := vclose k (gang cf) (hi3 c) 1 /\ vclose k (glin cf) (lo3 c) L.

Lemma base_fin M c : cfin fin (g_base_col A M c) -> cfin fin c.
Proof.
  clear - SA S6. intros [(F0 & _ & _) _]. unfold g_base_col, v3map in F0. cbn [gang w0] in F0.
  destruct (base_row_hi _ _ _ F0) as (_ & Fa & Fl & _). split; assumption.
Qed.
Lemma close_base k M M' cf c L : 1 <= k -> s <= L -> cfin fin (g_base_col A M cf) -> mclose (1 + rho) M M' -> col_close k cf c L ->
  col_close (k * (1 + rho) * (1 + sg)) (g_base_col A M cf) (V6 (mvec M' (hi3 c)) (mvec M' (lo3 c))) L.
Proof.
  intros Hk HL [(F0 & F1 & F2) (G0 & G1 & G2)] HM [Ha Hl]. pose proof (rho_nonneg u g w e d rho pos rho_d) as R0.
  unfold g_base_col, v3map in *. cbn [gang glin w0 w1 w2] in *.
  destruct (base_row_hi _ _ _ F0) as (_ & _ & _ & A0). destruct (base_row_hi _ _ _ F1) as (_ & _ & _ & A1).
  destruct (base_row_hi _ _ _ F2) as (_ & _ & _ & A2).
  pose proof (base_row_lo _ _ _ G0) as B0. pose proof (base_row_lo _ _ _ G1) as B1. pose proof (base_row_lo _ _ _ G2) as B2.
  replace (k * (1 + rho) * (1 + sg)) with ((1 + rho) * k * (1 + sg)) by ring.
  split; cbn [gang glin hi3 lo3].
  - split; [|rewrite norm_SO3 by apply HM; apply Ha].
    apply vclose_prod with (M := M) (x := gang cf); [lra | exact Hk | lra | | exact HM | exact Ha].
    unfold vle, vabs, vsub, vadd, vscale, vconst. cbn [vx vy vz]. split; [exact A0 | split; [exact A1 | exact A2]].
  - split; [|rewrite norm_SO3 by apply HM; apply Hl].
    apply vclose_prod with (M := M) (x := glin cf); [lra | exact Hk | lra | | exact HM | exact Hl].
    unfold vle, vabs, vsub, vadd, vscale, vconst. cbn [vx vy vz]. split; [exact B0 | split; [exact B1 | exact B2]].
Qed.

(* ---- the loop ---- *)
Lemma jac_fk ty : forall H P theta T res, g_jac_loop A ty H P theta T = Ok res -> g_fk_loop A ty H P theta T = Ok (snd res).
Proof.
  clear. induction ty as [|j ty IH]; intros H P theta T res E; cbn [g_jac_loop g_fk_loop] in *; [injection E as <-; reflexivity|].
  destruct H as [|h H]; [discriminate|]. destruct P as [|pn P]; [discriminate|]. destruct theta as [|t theta]; [discriminate|].
  cbv zeta in E. destruct (g_jac_loop A ty H P theta (g_fk_step A j h pn t T)) as [rest|x] eqn:E1; cbn [bind] in E; [|discriminate].
  injection E as <-. cbn [snd]. exact (IH _ _ _ _ _ E1).
Qed.

Definition rec_close (c1 c2 L : R) (x : jtype * v3 (num A) * v3 (num A) * num A) (y : jtype * vec3 * vec3 * R) : Prop :=
  let '(j, hf, pf, t) := x in let '(j', h, p, t') := y in
  j = j' /\ (vfin hf -> vclose c1 hf h 1) /\ unit3 h /\ vclose c2 pf p L /\ t' = val t.

Lemma rec_close_wider c1 c2 L c1' c2' L' x y : 1 <= c2 -> 0 <= L -> c1 <= c1' -> c2 <= c2' -> L <= L' -> rec_close c1 c2 L x y -> rec_close c1' c2' L' x y.
Proof.
  clear. intros H1 H0 H2 H3 H4. destruct x as [[[j hf] pf] t], y as [[[j' h] p] t']. unfold rec_close. intros (E1 & E2 & E3 & E4 & E5).
  split; [exact E1|]. split; [intros F; eapply vclose_mono; [exact H2 | lra | exact (E2 F)]|]. split; [exact E3|]. split; [|exact E5].
  eapply vclose_wider; [|exact H4|eapply vclose_mono; [exact H3 | exact H0 | exact E4]]. lra.
Qed.

Lemma jac_close ty : forall Hf H Pf theta T res Q p c L,
  g_jac_loop A ty Hf Pf theta T = Ok res -> tfin (snd res) -> Forall2 (rep_axis val d) Hf H -> 1 <= c -> tclose c T Q p L ->
  exists l Q' p', jac_loop ty H (map vval Pf) (map val theta) Q p = Ok (l, (Q', p')) /\
    let cN := c * ((1 + rho) * (1 + sg) ^ 4) ^ length ty in
    let LN := L + span_links s (map vval Pf) + span_joints s ty (map val theta) in
    tclose cN (snd res) Q' p' LN /\ Forall2 (rec_close (cN * (1 + rho) * (1 + sg)) cN LN) (fst res) l /\ map (fun x => fst (fst (fst x))) l = ty.
Proof.
  pose proof (rho_nonneg u g w e d rho pos rho_d) as R0. pose proof (sg_nonneg u g w e d sg pos sg_def) as G0.
  assert (J1 : 1 <= (1 + rho) * (1 + sg) ^ 4) by (apply ge1_mul; [lra | apply pow_R1_Rle; lra]).
  induction ty as [|j ty IH]; intros Hf H Pf theta T res Q p c L E F HH Hc HT; cbn [g_jac_loop jac_loop] in *.
  - injection E as <-. exists [], Q, p. split; [reflexivity|]. cbn [length span_joints snd fst map]. rewrite pow_O, Rmult_1_r, Rplus_0_r.
    destruct HT as (HM & Hp & HL). pose proof (span_links_nonneg s s_pos (map vval Pf)).
    split; [|split; [constructor | reflexivity]]. split; [exact HM|]. split; [|lra]. eapply vclose_wider; [exact Hc | | exact Hp]. lra.
  - destruct Hf as [|hf Hf]; [discriminate|]. destruct Pf as [|pf Pf]; [discriminate|]. destruct theta as [|t theta]; [discriminate|].
    inversion HH as [|? h ? H' HX HY]; subst. cbn [map]. cbv zeta in E.
    destruct (g_jac_loop A ty Hf Pf theta (g_fk_step A j hf pf t T)) as [rest|x] eqn:E1; cbn [bind] in E; [|discriminate].
    injection E as <-. cbn [snd fst] in *.
    pose proof (fin_loop A fin val u g w e SA _ _ _ _ _ _ (jac_fk _ _ _ _ _ _ E1) F) as F1.
    pose proof (close_step A fin val u g w e d sg rho s SA pos sg_def s_pos e_small rho_rot rho_d _ _ _ _ _ _ _ _ _ _ Hc F1 HX HT) as C1.
    destruct (fk_step j h (vval pf) (val t) Q p) as [Q1 p1] eqn:ES. cbn [fst snd] in C1.
    assert (Hc1 : 1 <= c * (1 + rho) * (1 + sg) ^ 4) by (replace (c * (1 + rho) * (1 + sg) ^ 4) with (c * ((1 + rho) * (1 + sg) ^ 4)) by ring; apply ge1_mul; assumption).
    edestruct IH as (l & Q' & p' & E' & CT & CL & EM); [exact E1 | exact F | exact HY | exact Hc1 | exact C1 |].
    rewrite E'. cbn [bind fst snd]. exists ((j, mvec Q1 h, p, val t) :: l), Q', p'. split; [reflexivity|]. cbv zeta.
    rewrite span_joints_cons. cbn [span_links fold_right]. fold (span_links s (map vval Pf)).
    set (X := c * ((1 + rho) * (1 + sg) ^ 4) ^ length (j :: ty)).
    assert (EX : c * (1 + rho) * (1 + sg) ^ 4 * ((1 + rho) * (1 + sg) ^ 4) ^ length ty = X) by (unfold X; cbn [length pow]; ring).
    rewrite EX in *.
    replace (L + (norm (vval pf) + s + span_links s (map vval Pf)) + (span_joint s j (val t) + span_joints s ty (map val theta)))
      with (L + (norm (vval pf) + s) + span_joint s j (val t) + span_links s (map vval Pf) + span_joints s ty (map val theta)) by ring.
    split; [exact CT|]. split; [|cbn [map fst]; rewrite EM; reflexivity]. constructor; [|exact CL].
    assert (XP : 1 <= ((1 + rho) * (1 + sg) ^ 4) ^ length ty) by (apply pow_R1_Rle; exact J1).
    assert (XC : c * (1 + rho) * (1 + sg) ^ 4 <= X) by (rewrite <- EX; nra).
    assert (XC' : c <= c * (1 + rho) * (1 + sg) ^ 4) by (replace (c * (1 + rho) * (1 + sg) ^ 4) with (c * ((1 + rho) * (1 + sg) ^ 4)) by ring; nra).
    destruct HT as (HM & Hp & HL).
    split; [reflexivity|]. split; [|split; [|split; [|reflexivity]]].
    + intros Fh. apply vclose_mv with (1 := SA) (2 := pos) (s := s); try assumption; try lra.
      * eapply mclose_mono; [exact XC | apply C1].
      * destruct HX as [U HX]. split; [lra | rewrite (norm_unit h U); lra].
    + apply SO3_unit; [apply C1 | apply HX].
    + eapply vclose_wider with (L := L); [|  | eapply vclose_mono with (c := c); [lra | lra | exact Hp]]; [lra|].
      pose proof (span_links_nonneg s s_pos (map vval Pf)). pose proof (norm_nonneg (vval pf)).
      assert (0 <= span_joint s j (val t)) by (pose proof (Rabs_pos (val t)); destruct j; cbn [span_joint]; lra).
      assert (SJ : forall ty th, 0 <= span_joints s ty th).
      { clear - s_pos. induction ty as [|j ty IH]; intros th; cbn [span_joints]; [lra|]. destruct th as [|t th]; [destruct j; lra|].
        pose proof (IH th). pose proof (Rabs_pos t). destruct j; lra. }
      pose proof (SJ ty (map val theta)). lra.
Qed.

(* ---- the columns ---- *)
Section Cols.
Context (c1 cN c2 kap LN LT : R).
Hypothesis k1 : 1 <= c1.
Hypothesis kN : 1 <= cN <= c2.
Hypothesis lN : s <= LN <= LT.
Hypothesis kk : c1 * (c2 * (1 + sg)) * (1 + sg) <= kap.

Lemma vclose_vzero L : 0 <= L -> vclose kap (g_vzero A) vzero L.
Proof.
  intros HL. pose proof (sg_nonneg u g w e d sg pos sg_def) as G0.
  assert (1 <= c1 * (c2 * (1 + sg)) * (1 + sg)) by (repeat apply ge1_mul; lra).
  assert (E : vval (g_vzero A) = vzero).
  { unfold SpecRound.vval, g_vzero. cbn [w0 w1 w2]. rewrite (proj2 (s_zero _ _ _ _ _ _ _ SA)). reflexivity. }
  split; [rewrite E, vsub_self, norm_vzero; nra | rewrite norm_vzero; exact HL].
Qed.

Lemma rotary_col hf pf pOT' h p pOT :
  cfin fin (GC hf (g_mv A (g_hat A hf) (g_vsub A pOT' pf))) -> (vfin hf -> vclose c1 hf h 1) -> vclose cN pf p LN -> (vfin pOT' -> vclose c2 pOT' pOT LT) ->
  col_close kap (GC hf (g_mv A (g_hat A hf) (g_vsub A pOT' pf))) (V6 h (mvec (hat h) (vsub pOT p))) (1 + 2 * LT).
Proof.
  intros [F1 F2] Hh Hp HT. cbn [gang glin] in *. specialize (Hh F1).
  destruct (mv_err A fin val u g w e SA _ _ F2) as (_ & F3 & _). destruct (vsub_err _ _ F3) as (F4 & _).
  specialize (HT F4). pose proof (sg_nonneg u g w e d sg pos sg_def) as G0.
  assert (G2 : 1 <= c2 * (1 + sg)) by (apply ge1_mul; lra).
  assert (D : vclose (c2 * (1 + sg)) (g_vsub A pOT' pf) (vsub pOT p) (LT + LT)).
  { apply vclose_sub; [lra | lra | lra | exact F3 | exact HT|]. eapply vclose_wider; [lra | apply lN |].
    eapply vclose_mono; [apply kN | lra | exact Hp]. }
  assert (K1 : c1 <= c1 * (c2 * (1 + sg)) * (1 + sg)).
  { assert (1 <= c2 * (1 + sg) * (1 + sg)) by (apply ge1_mul; lra). nra. }
  split; cbn [gang glin hi3 lo3].
  - eapply vclose_mono; [|lra|exact Hh]. lra.
  - eapply vclose_wider with (L := LT + LT); [lra | lra |]. eapply vclose_mono; [exact kk | lra |].
    apply vclose_cross; [exact k1 | exact G2 | lra | exact F2 | exact Hh | exact D].
Qed.

Lemma cols_close n : forall lf l pOT' pOT J', (length lf <= n)%nat -> g_jac_cols A lf pOT' = Ok J' -> Forall (cfin fin) J' ->
  Forall2 (rec_close c1 cN LN) lf l -> (vfin pOT' -> vclose c2 pOT' pOT LT) ->
  (In Mobile3 (map (fun x => fst (fst (fst x))) l) ->
     45 * (u + g + w + e + (c1 - 1)) <= 1 / 10 /\ (1 + 45 * (u + g + w + e + (c1 - 1))) * c1 * (1 + sg) <= kap) ->
  exists J, jac_cols l pOT = Ok J /\ Forall2 (fun cf c => col_close kap cf c (1 + 2 * LT)) J' J.
Proof.
  pose proof (sg_nonneg u g w e d sg pos sg_def) as G0.
  assert (K1 : c1 <= kap).
  { assert (1 <= c2 * (1 + sg) * (1 + sg)) by (repeat apply ge1_mul; lra).
    assert (c1 * 1 <= c1 * (c2 * (1 + sg) * (1 + sg))) by (apply Rmult_le_compat_l; lra). lra. }
  induction n as [|n IH]; intros lf l pOT' pOT J' Len E F HR HT HM.
  { destruct HR; [|cbn in Len; lia]. cbn in E. injection E as <-. exists []. split; [reflexivity | constructor]. }
  destruct HR as [|[[[j hf] pf] t] [[[j' h] p] t'] lf l HX HY].
  { cbn in E. injection E as <-. exists []. split; [reflexivity | constructor]. }
  destruct HX as (<- & Hh & Uh & Hp & Et). cbn [length] in Len.
  assert (Len' : (length lf <= n)%nat) by lia.
  assert (HM' : In Mobile3 (map (fun x => fst (fst (fst x))) l) ->
     45 * (u + g + w + e + (c1 - 1)) <= 1 / 10 /\ (1 + 45 * (u + g + w + e + (c1 - 1))) * c1 * (1 + sg) <= kap)
    by (intros I; apply HM; right; exact I).
  destruct j; cbn [g_jac_cols jac_cols] in *.
  - destruct (g_jac_cols A lf pOT') as [cs|x] eqn:E1; cbn [bind] in E; [|discriminate]. injection E as <-.
    inversion F as [|? ? F1 F2]; subst. destruct (IH _ _ _ pOT _ Len' E1 F2 HY HT HM') as (J & EJ & CJ). rewrite EJ. cbn [bind].
    eexists. split; [reflexivity|]. constructor; [|exact CJ]. apply rotary_col; assumption.
  - destruct (g_jac_cols A lf pOT') as [cs|x] eqn:E1; cbn [bind] in E; [|discriminate]. injection E as <-.
    inversion F as [|? ? F1 F2]; subst. destruct (IH _ _ _ pOT _ Len' E1 F2 HY HT HM') as (J & EJ & CJ). rewrite EJ. cbn [bind].
    eexists. split; [reflexivity|]. constructor; [|exact CJ]. split; cbn [gang glin hi3 lo3]; [apply vclose_vzero; lra|].
    destruct F1 as [_ F1]. cbn [glin] in F1. eapply vclose_wider with (L := 1); [lra | lra |].
    eapply vclose_mono; [exact K1 | lra | exact (Hh F1)].
  - destruct (g_jac_cols A lf pOT') as [cs|x] eqn:E1; cbn [bind] in E; [|discriminate]. injection E as <-.
    inversion F as [|? ? F1 F2]; subst. destruct (IH _ _ _ pOT _ Len' E1 F2 HY HT HM') as (J & EJ & CJ). rewrite EJ. cbn [bind].
    eexists. split; [reflexivity|]. constructor; [|exact CJ]. split; cbn [gang glin hi3 lo3]; apply vclose_vzero; lra.
  - destruct HY as [|r1 r1' lf l HX1 HY]; [discriminate|]. destruct r1 as [[[j1 hf1] pf1] t1], r1' as [[[j1' h1] p1] t1'].
    destruct HY as [|[[[j2 hf2] pf2] t2] [[[j2' h2] p2] t2'] lf l HX2 HY]; [discriminate|].
    destruct HX2 as (<- & Hh2 & Uh2 & Hp2 & Et2).
    destruct (g_jac_cols A lf pOT') as [cs|x] eqn:E1; cbn [bind] in E; [|discriminate]. injection E as <-.
    inversion F as [|? ? F1 F2]; subst. inversion F2 as [|? ? F3 F4]; subst.
    assert (Len2 : (length lf <= n)%nat) by (cbn [length] in Len'; lia).
    destruct (IH _ _ _ pOT _ Len2 E1 F4 HY HT) as (J & EJ & CJ).
    { intros I. apply HM'. right. right. exact I. }
    rewrite EJ. cbn [bind]. eexists. split; [reflexivity|].
    constructor; [|constructor; [apply rotary_col; assumption | exact CJ]].
    split; cbn [gang glin hi3 lo3]; [apply vclose_vzero; lra|].
    destruct (HM ltac:(left; reflexivity)) as [M1 M2].
    destruct F1 as [_ F1]. cbn [glin] in F1. destruct F3 as [F3 _]. cbn [gang] in F3.
    destruct (mv_err A fin val u g w e SA _ _ F1) as (F5 & F6 & _).
    destruct pos as (P1 & P2 & P3 & P4 & P5).
    assert (HMr : mclose (1 + 45 * (u + g + w + e + (c1 - 1))) (g_rot A hf2 t2) (rot h2 (val t2))).
    { split; [|apply rot_SO3; exact Uh2].
      pose proof (rot_err A fin val u g w e (c1 - 1) s SA (conj P1 (conj P2 (conj P3 (conj P4 (ltac:(lra) : 0 <= c1 - 1))))) s_pos M1 hf2 h2 t2 F5) as Q.
      assert (RA : rep_axis val (c1 - 1) hf2 h2) by (split; [exact Uh2 | destruct (Hh2 F3) as [Q1 _]; lra]).
      specialize (Q RA). lra. }
    eapply vclose_wider with (L := 1); [lra | lra |].
    eapply vclose_mono; [exact M2 | lra |].
    apply vclose_mv with (1 := SA) (2 := pos) (s := s); try assumption; try lra. exact (Hh F6).
Qed.
End Cols.

(* ---- the tool point and the whole function ---- *)
Lemma close_I3 : mclose 1 (g_I3 A) I3.
Proof.
  clear - SA. split; [|apply SO3_I]. unfold g_I3, SpecRound.mval. cbn [w0 w1 w2].
  rewrite (proj2 (s_zero _ _ _ _ _ _ _ SA)), (proj2 (s_one _ _ _ _ _ _ _ SA)).
  replace (msub _ I3) with (mconst 0) by (unfold mconst; la_ring). pose proof (frob_mconst 0). lra.
Qed.

Lemma tool_close c T Q p L fo fo' po po' : 1 <= c -> tclose c T Q p L -> rep_opt (rep_tf val d) fo fo' -> rep_opt (fun a b => vval a = b) po po' ->
  vfin (g_tool_point A fo po T) ->
  vclose (c * (1 + rho) * (1 + sg) ^ 4) (g_tool_point A fo po T)
    (let Rf := match fo' with Some F => tR F | None => I3 end in
     let p1 := match fo' with Some F => vadd p (mvec Q (tp F)) | None => p end in
     match po' with Some pt => vadd p1 (mvec (mmul Q Rf) pt) | None => p1 end) (L + span_tf s fo' + span_tool s po').
Proof.
  intros Hc HT Hf Hp F. pose proof (rho_nonneg u g w e d rho pos rho_d) as R0. pose proof (sg_nonneg u g w e d sg pos sg_def) as G0.
  destruct HT as (HM & Hq & HL). unfold g_tool_point in *. cbv zeta.
  pose (k1 := c * (1 + sg)). pose (k2 := k1 * (1 + sg)). pose (k3 := k2 * (1 + rho)). pose (k4 := k3 * (1 + sg)). pose (k5 := k4 * (1 + sg)).
  assert (B1 : 1 <= k1) by (apply ge1_mul; lra). assert (B2 : 1 <= k2) by (apply ge1_mul; lra). assert (B3 : 1 <= k3) by (apply ge1_mul; lra).
  assert (B4 : 1 <= k4) by (apply ge1_mul; lra).
  assert (C1 : c <= k1) by (unfold k1; nra). assert (C2 : k1 <= k2) by (unfold k2; nra). assert (C3 : k2 <= k3) by (unfold k3; nra).
  assert (C4 : k3 <= k4) by (unfold k4; nra). assert (C5 : k4 <= k5) by (unfold k5; nra).
  assert (EK : c * (1 + rho) * (1 + sg) ^ 4 = k5) by (unfold k5, k4, k3, k2, k1; ring). rewrite EK.
  set (pf1 := match fo with Some F0 => g_vadd A (gp T) (g_mv A (gR T) (gp F0)) | None => gp T end) in *.
  set (p1 := match fo' with Some F0 => vadd p (mvec Q (tp F0)) | None => p end).
  assert (NF : 0 <= span_tf s fo') by (destruct fo' as [X|]; cbn [span_tf]; [pose proof (norm_nonneg (tp X)); lra | lra]).
  assert (H1 : vfin pf1 -> vclose k2 pf1 p1 (L + span_tf s fo')).
  { intros F1. unfold pf1, p1 in *. destruct fo as [Fo|], fo' as [Fo'|]; cbn [rep_opt span_tf] in *; try tauto.
    - destruct Hf as (SF & HF & EF). pose proof (norm_nonneg (tp Fo')) as NN.
      apply (close_move A fin val u g w e d sg s SA pos sg_def s_pos e_small c c T Q p L (gR T) Q (gp Fo) (tp Fo') (norm (tp Fo') + s));
        [exact Hc | lra | exact F1 | split; [exact HM | split; assumption] | exact HM | | lra].
      rewrite <- EF. apply vclose_exact. rewrite EF. lra.
    - rewrite Rplus_0_r. eapply vclose_mono; [|lra|exact Hq]. lra. }
  destruct po as [pt|], po' as [pt'|]; cbn [rep_opt span_tool] in *; try tauto.
  - destruct (add_err A fin val u g w e SA _ _ F) as (F1 & F2 & _). destruct (mv_err A fin val u g w e SA _ _ F2) as (F3 & _ & _).
    pose proof (norm_nonneg pt') as NN.
    assert (HMf : mclose (1 + rho) (match fo with Some F0 => gR F0 | None => g_I3 A end) (match fo' with Some F0 => tR F0 | None => I3 end)).
    { destruct fo as [Fo|], fo' as [Fo'|]; cbn [rep_opt] in Hf; try tauto.
      - destruct Hf as (SF & HF & _). split; [lra | exact SF].
      - eapply mclose_mono; [|exact close_I3]. lra. }
    assert (HMM : mclose (c * (1 + rho) * (1 + sg)) (g_mm A (gR T) (match fo with Some F0 => gR F0 | None => g_I3 A end)) (mmul Q (match fo' with Some F0 => tR F0 | None => I3 end))).
    { apply mclose_mul with (1 := SA) (2 := pos) (s := s); try assumption; lra. }
    apply vclose_add with (1 := SA) (2 := pos) (s := s); try assumption; try lra.
    + eapply vclose_mono; [|lra|exact (H1 F1)]. lra.
    + replace k4 with (c * (1 + rho) * (1 + sg) * 1 * (1 + sg) * (1 + sg)) by (unfold k4, k3, k2, k1; ring).
      assert (B6 : 1 <= c * (1 + rho) * (1 + sg)) by (repeat apply ge1_mul; lra).
      eapply vclose_mono with (c := c * (1 + rho) * (1 + sg) * 1 * (1 + sg)); [nra | lra |].
      apply vclose_mv with (1 := SA) (2 := pos) (s := s); try assumption; try lra.
      rewrite <- Hp. apply vclose_exact. rewrite Hp. lra.
  - rewrite Rplus_0_r. eapply vclose_mono; [|lra|exact (H1 F)]. lra.
Qed.

Theorem jacobian_rounding rf ptf r theta ignore T' J' kap :
  represents fin val d rf r -> rep_opt (fun a b => vval a = b) ptf (rptool r) -> Forall fin theta ->
  g_fwdkin A rf theta ignore = Ok T' -> tfin T' -> g_jacobian A rf ptf theta ignore = Ok J' -> Forall (cfin fin) J' ->
  let cN := ((1 + rho) * (1 + sg) ^ 4) ^ length (rtype r) in
  let c1 := cN * (1 + rho) * (1 + sg) in
  c1 * (cN * (1 + rho) * (1 + sg) ^ 4 * (1 + sg)) * (1 + sg) <= kap ->
  (In Mobile3 (rtype r) -> 45 * (u + g + w + e + (c1 - 1)) <= 1 / 10 /\ (1 + 45 * (u + g + w + e + (c1 - 1))) * c1 * (1 + sg) <= kap) ->
  exists J, robotjacobian r (map val theta) ignore = Ok J /\
    Forall2 (fun cf c => col_close (kap * (1 + rho) * (1 + sg)) cf c (1 + 2 * span_jac s r (map val theta))) J' J.
Proof.
  intros Hr Hpt Ht E0 F0 E F cN c1 HK HM.
  pose proof (rho_nonneg u g w e d rho pos rho_d) as R0. pose proof (sg_nonneg u g w e d sg pos sg_def) as G0.
  unfold g_fwdkin, g_jacobian, robotjacobian in *. rewrite (limits_agree A fin val u g w e d SA _ _ _ _ Hr Ht) in *.
  destruct (check_limits r (map val theta) ignore) as [|y]; cbn [bind] in *; [|discriminate].
  pose proof (rep_P _ _ _ _ _ Hr) as EP. unfold span_jac. rewrite <- EP. destruct (grP rf) as [|p0 P]; cbn [map]; [discriminate|].
  rewrite (rep_type _ _ _ _ _ Hr) in *.
  destruct (g_jac_loop A (rtype r) (grH rf) P theta (GT (g_I3 A) p0)) as [res|y] eqn:E1; cbn [bind] in E; [|discriminate].
  rewrite (jac_fk _ _ _ _ _ _ E1) in E0. cbn [bind] in E0. injection E0 as <-.
  assert (F1 : tfin (snd res)) by (eapply (fin_apply_aux A fin val u g w e d sg s); eassumption).
  assert (C0 : tclose 1 (GT (g_I3 A) p0) I3 (vval p0) (norm (vval p0) + s)).
  { pose proof (norm_nonneg (vval p0)). split; [exact close_I3 | split; [apply vclose_exact; cbn [gp]; lra | lra]]. }
  destruct (jac_close _ _ _ _ _ _ _ _ _ _ _ E1 F1 (rep_H _ _ _ _ _ Hr) (Rle_refl 1) C0) as (l & Q' & p' & E2 & CT & CL & EM).
  rewrite E2. cbn [bind fst snd]. rewrite Rmult_1_l in CT, CL. fold cN in CT, CL. cbv zeta.
  destruct (g_jac_cols A (fst res) (g_tool_point A (grflange rf) ptf (snd res))) as [Jf|y] eqn:E3; cbn [bind] in E; [|discriminate].
  assert (K0 : 1 <= cN) by (apply pow_R1_Rle; apply ge1_mul; [lra | apply pow_R1_Rle; lra]).
  assert (K1 : 1 <= c1) by (unfold c1; repeat apply ge1_mul; lra).
  assert (K4 : 1 <= (1 + rho) * (1 + sg) ^ 4) by (apply ge1_mul; [lra | apply pow_R1_Rle; lra]).
  set (LN := norm (vval p0) + s + span_links s (map vval P) + span_joints s (rtype r) (map val theta)) in *.
  set (LT := LN + span_tf s (rflange r) + span_tool s (rptool r)).
  assert (NF : 0 <= span_tf s (rflange r)) by (destruct (rflange r) as [X|]; cbn [span_tf]; [pose proof (norm_nonneg (tp X)); lra | lra]).
  assert (NP : 0 <= span_tool s (rptool r)) by (destruct (rptool r) as [X|]; cbn [span_tool]; [pose proof (norm_nonneg X); lra | lra]).
  assert (HL : s <= LN <= LT) by (destruct CT as (_ & _ & CT); unfold LT; lra).
  set (pOT := match rptool r with
    | Some pt => vadd (match rflange r with Some F0 => vadd p' (mvec Q' (tp F0)) | None => p' end)
        (mvec (mmul Q' (match rflange r with Some F0 => tR F0 | None => I3 end)) pt)
    | None => match rflange r with Some F0 => vadd p' (mvec Q' (tp F0)) | None => p' end end).
  assert (CF : Forall (cfin fin) Jf).
  { destruct (grbase rf) as [B|]; [|injection E as <-; exact F]. injection E as <-. rewrite Forall_map in F.
    eapply Forall_impl; [|exact F]. intros c Fc. exact (base_fin _ _ Fc). }
  edestruct (cols_close c1 cN (cN * (1 + rho) * (1 + sg) ^ 4) kap LN LT K1) with (pOT := pOT) as (J & EJ & CJ);
    [ | exact HL | exact HK | apply Nat.le_refl | exact E3 | exact CF | exact CL | | rewrite EM; exact HM | ].
  { split; [exact K0|]. rewrite Rmult_assoc. nra. }
  { intros FT. apply (tool_close _ _ _ _ _ _ _ _ _ K0 CT (rep_flange _ _ _ _ _ Hr) Hpt FT). }
  rewrite EJ. cbn [bind]. cbn [span_links fold_right]. fold (span_links s (map vval P)). fold LN. fold LT.
  assert (KP : 1 <= kap).
  { eapply Rle_trans; [|exact HK]. apply ge1_mul; [|lra]. apply ge1_mul; [exact K1|]. apply ge1_mul; [|lra].
    rewrite Rmult_assoc. apply ge1_mul; assumption. }
  pose proof (rep_base _ _ _ _ _ Hr) as HB.
  destruct (grbase rf) as [B|], (rbase r) as [B'|]; cbn [rep_opt] in HB; try tauto; injection E as <-; (eexists; split; [reflexivity|]).
  - rewrite Forall_map in F. clear - CJ F HB KP HL SA S6 pos sg_def s_pos e_small rho_d R0.
    induction CJ as [|cf c Jf J HX HY IH]; cbn [map]; [constructor|]. inversion F as [|? ? F1 F2]; subst.
    constructor; [|exact (IH F2)]. apply close_base; [exact KP | lra | exact F1 | | exact HX].
    destruct HB as (SB & HB & _). split; [lra | exact SB].
  - clear - CJ KP R0 G0 HL s_pos. induction CJ as [|cf c Jf J [HX1 HX2] HY IH]; [constructor|]. constructor; [|exact IH].
    assert (kap <= kap * (1 + rho) * (1 + sg)).
    { assert (1 <= (1 + rho) * (1 + sg)) by (apply ge1_mul; lra). rewrite Rmult_assoc. nra. }
    split; (eapply vclose_mono; [exact H | lra | assumption]).
Qed.

(* ---- errors ---- *)
Lemma jac_loop_error ty : forall Hf H Pf theta T Q p, Forall2 (rep_axis val d) Hf H ->
  match g_jac_loop A ty Hf Pf theta T, jac_loop ty H (map vval Pf) (map val theta) Q p with
  | Ok x, Ok y => map (fun z => fst (fst (fst z))) (fst x) = map (fun z => fst (fst (fst z))) (fst y) | Err x, Err y => x = y | _, _ => False end.
Proof.
  clear. induction ty as [|j ty IH]; intros Hf H Pf theta T Q p HH; cbn [g_jac_loop jac_loop]; [reflexivity|].
  destruct HH as [|hf h Hf H HX HY]; [reflexivity|]. destruct Pf as [|pf Pf]; [reflexivity|]. destruct theta as [|t theta]; [reflexivity|].
  cbn [map]. destruct (fk_step j h (vval pf) (val t) Q p) as [Q1 p1]. cbv zeta. specialize (IH Hf H Pf theta (g_fk_step A j hf pf t T) Q1 p1 HY).
  destruct (g_jac_loop A ty Hf Pf theta (g_fk_step A j hf pf t T)) as [x|x], (jac_loop ty H (map vval Pf) (map val theta) Q1 p1) as [y|y];
    cbn [bind]; try tauto. cbn [fst map]. rewrite IH. reflexivity.
Qed.
Lemma jac_cols_error n : forall lf l pOT' pOT, (length lf <= n)%nat -> map (fun z => fst (fst (fst z))) lf = map (fun z => fst (fst (fst z))) l ->
  match g_jac_cols A lf pOT', jac_cols l pOT with Ok _, Ok _ => True | Err x, Err y => x = y | _, _ => False end.
Proof.
  clear. induction n as [|n IH]; intros lf l pOT' pOT Len E.
  { destruct lf; [|cbn in Len; lia]. destruct l; [exact I | discriminate]. }
  destruct lf as [|[[[j hf] pf] t] lf]; [destruct l; [exact I | discriminate]|]. destruct l as [|[[[j' h] p] t'] l]; [discriminate|].
  cbn [map fst length] in *. injection E as <- E.
  assert (IH1 : forall lf0 l0, (length lf0 <= n)%nat -> map (fun z => fst (fst (fst z))) lf0 = map (fun z => fst (fst (fst z))) l0 ->
    forall f f', match (let* cs := g_jac_cols A lf0 pOT' in Ok (f cs : list (gcol A))), (let* cs := jac_cols l0 pOT in Ok (f' cs : list vec6)) with
      Ok _, Ok _ => True | Err x, Err y => x = y | _, _ => False end).
  { intros lf0 l0 L0 E0 f f'. specialize (IH lf0 l0 pOT' pOT L0 E0). destruct (g_jac_cols A lf0 pOT'), (jac_cols l0 pOT); cbn [bind]; auto. }
  destruct j; cbn [g_jac_cols jac_cols].
  - exact (IH1 lf l ltac:(lia) E (fun cs => _ :: cs) (fun cs => _ :: cs)).
  - exact (IH1 lf l ltac:(lia) E (fun cs => _ :: cs) (fun cs => _ :: cs)).
  - exact (IH1 lf l ltac:(lia) E (fun cs => _ :: cs) (fun cs => _ :: cs)).
  - destruct lf as [|[[[j1 hf1] pf1] t1] lf]; [destruct l; [reflexivity | discriminate]|]. destruct l as [|[[[j1' h1] p1] t1'] l]; [discriminate|].
    cbn [map fst length] in *. injection E as _ E.
    destruct lf as [|[[[j2 hf2] pf2] t2] lf]; [destruct l; [reflexivity | discriminate]|]. destruct l as [|[[[j2' h2] p2] t2'] l]; [discriminate|].
    cbn [map fst length] in *. injection E as _ E.
    exact (IH1 lf l ltac:(lia) E (fun cs => _ :: _ :: cs) (fun cs => _ :: _ :: cs)).
Qed.

Theorem jacobian_error rf ptf r theta ignore x : represents fin val d rf r -> Forall fin theta ->
  (g_jacobian A rf ptf theta ignore = Err x <-> robotjacobian r (map val theta) ignore = Err x).
Proof.
  clear - SA. intros Hr Ht. unfold g_jacobian, robotjacobian. rewrite (limits_agree A fin val u g w e d SA _ _ _ _ Hr Ht).
  destruct (check_limits r (map val theta) ignore) as [|y]; cbn [bind]; [|split; congruence].
  pose proof (rep_P _ _ _ _ _ Hr) as EP. rewrite <- EP. destruct (grP rf) as [|p0 P]; cbn [map]; [split; congruence|].
  rewrite (rep_type _ _ _ _ _ Hr).
  pose proof (jac_loop_error (rtype r) (grH rf) (rH r) P theta (GT (g_I3 A) p0) I3 (vval p0) (rep_H _ _ _ _ _ Hr)) as K.
  destruct (g_jac_loop A (rtype r) (grH rf) P theta (GT (g_I3 A) p0)) as [T1|y1], (jac_loop (rtype r) (rH r) (map vval P) (map val theta) I3 (vval p0)) as [[l [Q p]]|y2];
    cbn [bind] in *; try tauto; [|subst; split; congruence].
  cbv zeta. cbn [fst] in K.
  match goal with |- (let* _ := g_jac_cols A (fst T1) ?a in _) = _ <-> (let* _ := jac_cols l ?b in _) = _ =>
    pose proof (jac_cols_error (length (fst T1)) (fst T1) l a b (Nat.le_refl _) K) as K1;
    destruct (g_jac_cols A (fst T1) a) as [J1|z1], (jac_cols l b) as [J2|z2]; cbn [bind]; try tauto end.
  - destruct (grbase rf), (rbase r); split; discriminate.
  - subst. split; congruence.
Qed.
End Jac.
