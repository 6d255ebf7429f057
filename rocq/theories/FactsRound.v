(** Rounding errors of matrix products, rot and forward kinematics. *)
From Coq Require Import Reals List Bool Lra.
From Verif Require Import LinAlg RealAux Py FactsReal FactsLinAlg ModelRot SpecRot FactsRot ModelTransform ModelRobot ModelKin SpecKin FactsKin
  ModelFloat FactsNorm SpecRound.
Import ListNotations.
Open Scope R_scope.

(** x is within b of y, and y is at most m in absolute value *)
Definition near (x y b m : R) : Prop := Rabs (x - y) <= b /\ Rabs y <= m.

Lemma near_nonneg x y b m : near x y b m -> 0 <= b /\ 0 <= m.
Proof. intros [H K]. pose proof (Rabs_pos (x - y)). pose proof (Rabs_pos y). lra. Qed.
Lemma near_abs x y b m : near x y b m -> Rabs x <= m + b.
Proof. intros [H K]. replace x with (y + (x - y)) by ring. pose proof (Rabs_triang y (x - y)). lra. Qed.
Lemma near_mul x y b m x' y' b' m' : near x y b m -> near x' y' b' m' ->
  near (x * x') (y * y') (b * b' + b * m' + m * b') (m * m').
Proof.
  intros H K. destruct (near_nonneg _ _ _ _ H) as [Hb Hm]. destruct (near_nonneg _ _ _ _ K) as [Kb Km].
  destruct H as [H1 H2], K as [K1 K2]. split.
  - replace (x * x' - y * y') with ((x - y) * (x' - y') + (x - y) * y' + y * (x' - y')) by ring.
    eapply Rle_trans; [apply Rabs_triang|].
    pose proof (Rabs_triang ((x - y) * (x' - y')) ((x - y) * y')) as T.
    rewrite !Rabs_mult in *.
    pose proof (Rmult_le_compat _ _ _ _ (Rabs_pos _) (Rabs_pos _) H1 K1).
    pose proof (Rmult_le_compat _ _ _ _ (Rabs_pos _) (Rabs_pos _) H1 K2).
    pose proof (Rmult_le_compat _ _ _ _ (Rabs_pos _) (Rabs_pos _) H2 K1). lra.
  - rewrite Rabs_mult. apply Rmult_le_compat; auto using Rabs_pos.
Qed.
Lemma near_add x y b m x' y' b' m' : near x y b m -> near x' y' b' m' -> near (x + x') (y + y') (b + b') (m + m').
Proof.
  intros [H1 H2] [K1 K2]. split.
  - replace (x + x' - (y + y')) with ((x - y) + (x' - y')) by ring. pose proof (Rabs_triang (x - y) (x' - y')). lra.
  - pose proof (Rabs_triang y y'). lra.
Qed.
Lemma near_opp x y b m : near x y b m -> near (- x) (- y) b m.
Proof. intros [H K]. split; [replace (- x - - y) with (- (x - y)) by ring|]; rewrite Rabs_Ropp; assumption. Qed.
Lemma near_weak x y b m b' m' : near x y b m -> b <= b' -> m <= m' -> near x y b' m'.
Proof. unfold near. intros []. lra. Qed.
Lemma near_refl y m : Rabs y <= m -> near y y 0 m.
Proof. intros. split; [|assumption]. replace (y - y) with 0 by ring. rewrite Rabs_R0. lra. Qed.
(** one more rounding *)
Lemma near_round z x y b m u e : near x y b m -> 0 <= u -> Rabs (z - x) <= u * Rabs x + e ->
  near z y (b + u * (m + b) + e) m.
Proof.
  intros H Hu Hz. pose proof (near_abs _ _ _ _ H) as Ha. destruct H as [H K]. split; [|exact K].
  replace (z - y) with ((z - x) + (x - y)) by ring. pose proof (Rabs_triang (z - x) (x - y)).
  pose proof (Rmult_le_compat_l u _ _ Hu Ha). lra.
Qed.

Lemma madd_msub M N : madd N (msub M N) = M. Proof. la_ring. Qed.
Lemma vadd_vsub' a b : vadd b (vsub a b) = a. Proof. la_ring. Qed.
Lemma split_mmul X m n M' N' : msub X (mmul M' N') =
  madd (msub X (mmul m n)) (madd (mmul (msub m M') (msub n N')) (madd (mmul (msub m M') N') (mmul M' (msub n N')))).
Proof. la_ring. Qed.
Lemma split_mvec X m n M' v : vsub X (mvec M' v) =
  vadd (vsub X (mvec m n)) (vadd (mvec (msub m M') (vsub n v)) (vadd (mvec (msub m M') v) (mvec M' (vsub n v)))).
Proof. la_ring. Qed.
Lemma split_vadd X m n v v' : vsub X (vadd v v') = vadd (vsub X (vadd m n)) (vadd (vsub m v) (vsub n v')).
Proof. la_ring. Qed.
Lemma split_vscale X t m v : vsub X (vscale t v) = vadd (vsub X (vscale t m)) (vscale t (vsub m v)).
Proof. la_ring. Qed.

Lemma ge1_mul a b : 1 <= a -> 1 <= b -> 1 <= a * b.
Proof. intros. replace 1 with (1 * 1) by ring. apply Rmult_le_compat; lra. Qed.

Section Round.
Context (A : arith) (fin : num A -> Prop) (val : num A -> R) (u g w e d sg rho s : R).
Hypothesis SA : sound A fin val u g w e.
Hypothesis pos : 0 <= u /\ 0 <= g /\ 0 <= w /\ 0 <= e /\ 0 <= d.
Hypothesis sg_def : 3 * g + 3 * e <= sg /\ 2 * g + 2 * u <= sg /\ 3 * u <= sg.
Hypothesis s_pos : 0 < s <= 1.
Hypothesis e_small : e <= u * s.
Notation vval := (vval val).
Notation mval := (mval val).
Notation vfin := (vfin fin).
Notation mfin := (mfin fin).

(** a vector and a rotation with a relative error of c - 1 *)
Definition vclose (c : R) (a : v3 (num A)) (v : vec3) (L : R) : Prop := norm (vsub (vval a) v) <= (c - 1) * L /\ norm v <= L.
Definition mclose (c : R) (M : v3 (v3 (num A))) (N : mat3) : Prop := frob (msub (mval M) N) <= c - 1 /\ is_SO3 N.

Lemma dot_err a b : fin (g_dot3 A a b) ->
  vfin a /\ vfin b /\
  Rabs (val (g_dot3 A a b) - dot (vval a) (vval b)) <= g * dot (vabs (vval a)) (vabs (vval b)) + e.
Proof.
  intros H. destruct (s_dot _ _ _ _ _ _ _ SA _ _ _ _ _ _ H) as [(F1 & F2 & F3 & F4 & F5 & F6) D].
  split; [repeat split; assumption|]. split; [repeat split; assumption|].
  unfold dot, vabs, SpecRound.vval. cbn [vx vy vz]. rewrite <- !Rabs_mult. exact D.
Qed.

Lemma mv_err M x : vfin (g_mv A M x) ->
  mfin M /\ vfin x /\
  vle (vabs (vsub (vval (g_mv A M x)) (mvec (mval M) (vval x))))
      (vadd (vscale g (mvec (mabs (mval M)) (vabs (vval x)))) (vconst e)).
Proof.
  intros (H0 & H1 & H2). unfold g_mv, v3map in *. cbn [w0 w1 w2] in *.
  destruct (dot_err _ _ H0) as (A0 & B0 & C0). destruct (dot_err _ _ H1) as (A1 & B1 & C1).
  destruct (dot_err _ _ H2) as (A2 & B2 & C2).
  split; [repeat split; apply A0 || apply A1 || apply A2|]. split; [exact B0|].
  unfold vle, vabs, vsub, vadd, vscale, vconst. cbn [vx vy vz]. repeat split; [exact C0 | exact C1 | exact C2].
Qed.

Lemma mm_err M N : mfin (g_mm A M N) ->
  mfin M /\ mfin N /\
  mle (mabs (msub (mval (g_mm A M N)) (mmul (mval M) (mval N))))
      (madd (mscale g (mmul (mabs (mval M)) (mabs (mval N)))) (mconst e)).
Proof.
  intros ((H00 & H01 & H02) & (H10 & H11 & H12) & (H20 & H21 & H22)).
  unfold g_mm, v3map in *. cbn [w0 w1 w2] in *.
  destruct (dot_err _ _ H00) as (A00 & B00 & C00). destruct (dot_err _ _ H01) as (A01 & B01 & C01).
  destruct (dot_err _ _ H02) as (A02 & B02 & C02). destruct (dot_err _ _ H10) as (A10 & B10 & C10).
  destruct (dot_err _ _ H11) as (A11 & B11 & C11). destruct (dot_err _ _ H12) as (A12 & B12 & C12).
  destruct (dot_err _ _ H20) as (A20 & B20 & C20). destruct (dot_err _ _ H21) as (A21 & B21 & C21).
  destruct (dot_err _ _ H22) as (A22 & B22 & C22).
  split; [split; [exact A00 | split; [exact A10 | exact A20]]|].
  split; [destruct B00 as (? & ? & ?), B01 as (? & ? & ?), B02 as (? & ? & ?); repeat split; assumption|].
  unfold mle, vle. repeat split; assumption.
Qed.

Lemma add_err a b : vfin (g_vadd A a b) ->
  vfin a /\ vfin b /\
  vle (vabs (vsub (vval (g_vadd A a b)) (vadd (vval a) (vval b)))) (vadd (vscale u (vabs (vadd (vval a) (vval b)))) (vconst e)).
Proof.
  intros (H0 & H1 & H2). unfold g_vadd, v3zip in *. cbn [w0 w1 w2] in *.
  destruct (s_add _ _ _ _ _ _ _ SA _ _ H0) as (A0 & B0 & C0). destruct (s_add _ _ _ _ _ _ _ SA _ _ H1) as (A1 & B1 & C1).
  destruct (s_add _ _ _ _ _ _ _ SA _ _ H2) as (A2 & B2 & C2).
  repeat split; assumption.
Qed.
Lemma scale_err t a : vfin (v3map (nmul A t) a) ->
  fin t /\ vfin a /\
  vle (vabs (vsub (vval (v3map (nmul A t) a)) (vscale (val t) (vval a)))) (vadd (vscale u (vabs (vscale (val t) (vval a)))) (vconst e)).
Proof.
  intros (H0 & H1 & H2). unfold v3map in *. cbn [w0 w1 w2] in *.
  destruct (s_mul _ _ _ _ _ _ _ SA _ _ H0) as (A0 & B0 & C0). destruct (s_mul _ _ _ _ _ _ _ SA _ _ H1) as (A1 & B1 & C1).
  destruct (s_mul _ _ _ _ _ _ _ SA _ _ H2) as (A2 & B2 & C2).
  repeat split; assumption.
Qed.

Lemma frob_near M N c : mclose c M N -> frob (mval M) <= sqrt 3 + (c - 1).
Proof.
  intros [H K]. rewrite <- (madd_msub (mval M) N).
  eapply Rle_trans; [apply frob_triangle|]. rewrite (frob_SO3 N K). lra.
Qed.
Lemma norm_near a v c L : vclose c a v L -> norm (vval a) <= c * L.
Proof.
  intros [H K]. rewrite <- (vadd_vsub' (vval a) v).
  eapply Rle_trans; [apply norm_triangle|]. lra.
Qed.

Lemma mclose_mul a b M N M' N' : 1 <= a -> 1 <= b -> mfin (g_mm A M N) -> mclose a M M' -> mclose b N N' ->
  mclose (a * b * (1 + sg)) (g_mm A M N) (mmul M' N').
Proof.
  intros Ha Hb F HM HN. destruct (mm_err _ _ F) as (_ & _ & E). split; [|apply SO3_mmul; [apply HM | apply HN]].
  apply frob_prod_err in E; [|tauto|tauto].
  pose proof (frob_near _ _ _ HM) as FM. pose proof (frob_near _ _ _ HN) as FN. pose proof sqrt3_bounds as S3.
  destruct HM as [HM KM], HN as [HN KN].
  set (X := mval (g_mm A M N)) in *. set (m := mval M) in *. set (n := mval N) in *.
  rewrite (split_mmul X m n M' N'). eapply Rle_trans; [apply frob_triangle|].
  pose proof (frob_triangle (mmul (msub m M') (msub n N')) (madd (mmul (msub m M') N') (mmul M' (msub n N')))) as T1.
  pose proof (frob_triangle (mmul (msub m M') N') (mmul M' (msub n N'))) as T2.
  rewrite (frob_mmul_SO3_r _ N' KN), (frob_mmul_SO3_l M' _ KM) in T2.
  pose proof (frob_mmul_le (msub m M') (msub n N')) as T3.
  pose proof (Rmult_le_compat _ _ _ _ (frob_nonneg _) (frob_nonneg _) HM HN) as T4.
  pose proof (Rmult_le_compat _ _ _ _ (frob_nonneg _) (frob_nonneg _) FM FN) as T5.
  assert (Q : (sqrt 3 + (a - 1)) * (sqrt 3 + (b - 1)) <= 3 * (a * b)).
  { assert (S33 : sqrt 3 * sqrt 3 = 3) by (apply sqrt_sqrt; lra).
    assert (sqrt 3 + (a - 1) <= sqrt 3 * a) by nra. assert (sqrt 3 + (b - 1) <= sqrt 3 * b) by nra.
    assert ((sqrt 3 + (a - 1)) * (sqrt 3 + (b - 1)) <= (sqrt 3 * a) * (sqrt 3 * b)) by (apply Rmult_le_compat; lra).
    replace (sqrt 3 * a * (sqrt 3 * b)) with (sqrt 3 * sqrt 3 * (a * b)) in H1 by ring. rewrite S33 in H1. exact H1. }
  destruct pos as (P1 & P2 & P3 & P4 & P5).
  assert (T6 : g * (frob m * frob n) <= g * (3 * (a * b))) by (apply Rmult_le_compat_l; lra).
  assert (1 <= a * b) by (rewrite <- (Rmult_1_l 1); apply Rmult_le_compat; lra).
  assert (T7 : 3 * e <= a * b * (3 * e)) by nra.
  assert (T8 : a * b * (3 * g + 3 * e) <= a * b * sg) by (apply Rmult_le_compat_l; lra).
  lra.
Qed.

Lemma vclose_mv a b M x M' v L : 1 <= a -> 1 <= b -> s <= L -> vfin (g_mv A M x) -> mclose a M M' -> vclose b x v L ->
  vclose (a * b * (1 + sg)) (g_mv A M x) (mvec M' v) L.
Proof.
  intros Ha Hb HL F HM Hx. destruct (mv_err _ _ F) as (_ & _ & E).
  apply norm_prod_err in E; [|tauto|tauto].
  pose proof (frob_near _ _ _ HM) as FM. pose proof (norm_near _ _ _ _ Hx) as Fx. pose proof sqrt3_bounds as S3.
  destruct HM as [HM KM], Hx as [Hx Kx]. split; [|rewrite norm_SO3 by exact KM; exact Kx].
  set (X := vval (g_mv A M x)) in *. set (m := mval M) in *. set (n := vval x) in *.
  rewrite (split_mvec X m n M' v). eapply Rle_trans; [apply norm_triangle|].
  pose proof (norm_triangle (mvec (msub m M') (vsub n v)) (vadd (mvec (msub m M') v) (mvec M' (vsub n v)))) as T1.
  pose proof (norm_triangle (mvec (msub m M') v) (mvec M' (vsub n v))) as T2.
  rewrite (norm_SO3 M' _ KM) in T2.
  pose proof (norm_mvec_le (msub m M') (vsub n v)) as T3. pose proof (norm_mvec_le (msub m M') v) as T3'.
  pose proof (Rmult_le_compat _ _ _ _ (frob_nonneg _) (norm_nonneg _) HM Hx) as T4.
  pose proof (Rmult_le_compat _ _ _ _ (frob_nonneg _) (norm_nonneg _) HM Kx) as T4'.
  pose proof (Rmult_le_compat _ _ _ _ (frob_nonneg _) (norm_nonneg _) FM Fx) as T5.
  destruct pos as (P1 & P2 & P3 & P4 & P5).
  assert (Q : (sqrt 3 + (a - 1)) * (b * L) <= 2 * (a * b * L)).
  { assert (sqrt 3 + (a - 1) <= 2 * a) by lra. assert (0 <= b * L) by nra.
    replace (2 * (a * b * L)) with ((2 * a) * (b * L)) by ring. apply Rmult_le_compat_r; lra. }
  assert (T6 : g * (frob m * norm n) <= g * (2 * (a * b * L))) by (apply Rmult_le_compat_l; lra).
  assert (AB : 1 <= a * b) by nra.
  assert (ABL : L <= a * b * L) by nra.
  assert (T7 : 2 * e <= a * b * L * (2 * u)).
  { assert (u * s <= u * (a * b * L)) by (apply Rmult_le_compat_l; lra). lra. }
  assert (T8 : a * b * L * (2 * g + 2 * u) <= a * b * L * sg) by (apply Rmult_le_compat_l; [nra | lra]).
  lra.
Qed.

Lemma vclose_add c x y v v' L L' : 1 <= c -> s <= L -> s <= L' -> vfin (g_vadd A x y) -> vclose c x v L -> vclose c y v' L' ->
  vclose (c * (1 + sg)) (g_vadd A x y) (vadd v v') (L + L').
Proof.
  intros Hc HL HL' F Hx Hy. destruct (add_err _ _ F) as (_ & _ & E).
  apply norm_round_err in E; [|tauto|tauto].
  pose proof (norm_near _ _ _ _ Hx) as Fx. pose proof (norm_near _ _ _ _ Hy) as Fy.
  destruct Hx as [Hx Kx], Hy as [Hy Ky]. split; [|pose proof (norm_triangle v v'); lra].
  set (X := vval (g_vadd A x y)) in *. set (m := vval x) in *. set (n := vval y) in *.
  rewrite (split_vadd X m n v v'). eapply Rle_trans; [apply norm_triangle|].
  pose proof (norm_triangle (vsub m v) (vsub n v')) as T1. pose proof (norm_triangle m n) as T2.
  destruct pos as (P1 & P2 & P3 & P4 & P5).
  assert (T3 : u * norm (vadd m n) <= u * (c * (L + L'))) by (apply Rmult_le_compat_l; lra).
  assert (CL : s <= c * (L + L')) by nra.
  assert (T4 : u * s <= u * (c * (L + L'))) by (apply Rmult_le_compat_l; lra).
  assert (T5 : c * (L + L') * (3 * u) <= c * (L + L') * sg) by (apply Rmult_le_compat_l; lra).
  lra.
Qed.

Lemma vclose_scale c t x v : 1 <= c -> vfin (v3map (nmul A t) x) -> vclose c x v 1 ->
  vclose (c * (1 + sg)) (v3map (nmul A t) x) (vscale (val t) v) (Rabs (val t) + s).
Proof.
  intros Hc F Hx. destruct (scale_err _ _ F) as (_ & _ & E).
  apply norm_round_err in E; [|tauto|tauto].
  pose proof (norm_near _ _ _ _ Hx) as Fx. destruct Hx as [Hx Kx]. pose proof (Rabs_pos (val t)) as Pt.
  split; [|rewrite norm_vscale; pose proof (Rmult_le_compat_l _ _ _ Pt Kx); lra].
  set (X := vval (v3map (nmul A t) x)) in *. set (m := vval x) in *.
  rewrite (split_vscale X (val t) m v). eapply Rle_trans; [apply norm_triangle|]. rewrite norm_vscale in *.
  destruct pos as (P1 & P2 & P3 & P4 & P5).
  assert (T2 : Rabs (val t) * norm (vsub m v) <= Rabs (val t) * ((c - 1) * 1)) by (apply Rmult_le_compat_l; lra).
  assert (T2' : Rabs (val t) * norm m <= Rabs (val t) * (c * 1)) by (apply Rmult_le_compat_l; lra).
  assert (T3 : u * (Rabs (val t) * norm m) <= u * (Rabs (val t) * (c * 1))) by (apply Rmult_le_compat_l; lra).
  set (L := Rabs (val t)) in *.
  assert (T4 : u * s <= u * (c * s)) by (apply Rmult_le_compat_l; nra).
  assert (T5 : c * (L + s) * (3 * u) <= c * (L + s) * sg) by (apply Rmult_le_compat_l; [nra | lra]).
  assert (T6 : 0 <= (c - 1) * s) by nra.
  assert (0 <= c * L * u) by (apply Rmult_le_pos; [nra | lra]).
  assert (0 <= c * s * u) by (apply Rmult_le_pos; [nra | lra]). nra.
Qed.

Lemma vclose_mono c c' x v L : c <= c' -> 0 <= L -> vclose c x v L -> vclose c' x v L.
Proof. intros H HL [H1 H2]. split; [|exact H2]. nra. Qed.
Lemma mclose_mono c c' x v : c <= c' -> mclose c x v -> mclose c' x v.
Proof. intros H [H1 H2]. split; [lra | exact H2]. Qed.
Lemma vclose_exact x L : norm (vval x) <= L -> vclose 1 x (vval x) L.
Proof. intros H. split; [|exact H]. rewrite vsub_self. rewrite norm_vzero. lra. Qed.
(* ---- rot ---- *)
Definition vnear (a : v3 (num A)) (v : vec3) : Prop :=
  near (val (w0 a)) (vx v) d 1 /\ near (val (w1 a)) (vy v) d 1 /\ near (val (w2 a)) (vz v) d 1.

Section Rot.
Hypothesis m_small : 45 * (u + g + w + e + d) <= 1 / 10.
Lemma small : 0 <= u <= 1 / 450 /\ 0 <= g <= 1 / 450 /\ 0 <= w <= 1 / 450 /\ 0 <= e <= 1 / 450 /\ 0 <= d <= 1 / 450.
Proof. destruct pos as (P1 & P2 & P3 & P4 & P5). repeat split; lra. Qed.

Lemma dot3_near a b va vb : fin (g_dot3 A a b) -> vnear a va -> vnear b vb -> Rabs (dot va vb) <= 1 ->
  near (val (g_dot3 A a b)) (dot va vb) (4 * g + e + 7 * d) 1.
Proof.
  intros F (A0 & A1 & A2) (B0 & B1 & B2) H. split; [|exact H].
  destruct (dot_err _ _ F) as (_ & _ & D).
  pose proof (near_mul _ _ _ _ _ _ _ _ A0 B0) as N0. pose proof (near_mul _ _ _ _ _ _ _ _ A1 B1) as N1.
  pose proof (near_mul _ _ _ _ _ _ _ _ A2 B2) as N2.
  pose proof (near_add _ _ _ _ _ _ _ _ (near_add _ _ _ _ _ _ _ _ N0 N1) N2) as [N _].
  pose proof (near_abs _ _ _ _ N0) as M0. pose proof (near_abs _ _ _ _ N1) as M1. pose proof (near_abs _ _ _ _ N2) as M2.
  rewrite !Rabs_mult in M0, M1, M2.
  destruct small as (P1 & P2 & P3 & P4 & P5).
  assert (Q : g * dot (vabs (vval a)) (vabs (vval b)) <= 4 * g).
  { rewrite (Rmult_comm 4). apply Rmult_le_compat_l; [lra|]. unfold dot, vabs, SpecRound.vval. cbn [vx vy vz].
    assert (d * d <= 1 / 450 * (1 / 450)) by (apply Rmult_le_compat; lra). lra. }
  assert (dd : d * d <= d * (1 / 450)) by (apply Rmult_le_compat_l; lra).
  replace (val (g_dot3 A a b) - dot va vb)
    with ((val (g_dot3 A a b) - dot (vval a) (vval b)) + (dot (vval a) (vval b) - dot va vb)) by ring.
  eapply Rle_trans; [apply Rabs_triang|].
  assert (Rabs (dot (vval a) (vval b) - dot va vb) <= 6 * d + 3 * (d * d)).
  { unfold dot at 1 2. unfold SpecRound.vval. cbn [vx vy vz]. lra. }
  lra.
Qed.

Lemma rot_entry i x y t io k k2 :
  fin (nadd A (nadd A i (nmul A (nsin A t) x)) (nmul A (nsub A (none1 A) (ncos A t)) y)) ->
  near (val i) io 0 1 -> near (val x) k d 1 -> near (val y) k2 (4 * g + e + 7 * d) 1 ->
  Rabs (val (nadd A (nadd A i (nmul A (nsin A t) x)) (nmul A (nsub A (none1 A) (ncos A t)) y))
        - (io + sin (val t) * k + (1 - cos (val t)) * k2)) <= 15 * (u + g + w + e + d).
Proof.
  intros F Hi Hx Hy. destruct small as (P1 & P2 & P3 & P4 & P5).
  destruct (s_add _ _ _ _ _ _ _ SA _ _ F) as (F1 & F2 & E0).
  destruct (s_add _ _ _ _ _ _ _ SA _ _ F1) as (_ & F4 & E1).
  destruct (s_mul _ _ _ _ _ _ _ SA _ _ F4) as (F5 & _ & E2).
  destruct (s_mul _ _ _ _ _ _ _ SA _ _ F2) as (F6 & _ & E3).
  destruct (s_sub _ _ _ _ _ _ _ SA _ _ F6) as (_ & F8 & E4).
  destruct (s_sin _ _ _ _ _ _ _ SA _ F5) as (_ & Es). destruct (s_cos _ _ _ _ _ _ _ SA _ F8) as (_ & Ec).
  rewrite (proj2 (s_one _ _ _ _ _ _ _ SA)) in E4.
  assert (Ns : near (val (nsin A t)) (sin (val t)) w 1) by (split; [exact Es | apply Rabs_le; pose proof (SIN_bound (val t)); lra]).
  assert (Nc : near (1 - val (ncos A t)) (1 - cos (val t)) w 2).
  { split; [|apply Rabs_le; pose proof (COS_bound (val t)); lra].
    replace (1 - val (ncos A t) - (1 - cos (val t))) with (- (val (ncos A t) - cos (val t))) by ring.
    rewrite Rabs_Ropp. exact Ec. }
  assert (wd : w * d <= w * (1 / 450)) by (apply Rmult_le_compat_l; lra).
  (* sin * x *)
  assert (N1 : near (val (nmul A (nsin A t) x)) (sin (val t) * k) (1.01 * w + d + 1.1 * u + e) 1).
  { assert (N : near (val (nsin A t) * val x) (sin (val t) * k) (1.01 * w + d) 1)
      by (eapply near_weak; [exact (near_mul _ _ _ _ _ _ _ _ Ns Hx) | lra | lra]).
    eapply near_weak; [apply (near_round _ _ _ _ _ u e N); [lra | exact E2] | | lra].
    assert (u * (1 + (1.01 * w + d)) <= u * 1.1) by (apply Rmult_le_compat_l; lra). lra. }
  assert (N2 : near (val (nadd A i (nmul A (nsin A t) x))) (io + sin (val t) * k) (1.01 * w + d + 3.2 * u + 2 * e) 2).
  { pose proof (near_add _ _ _ _ _ _ _ _ Hi N1) as N.
    eapply near_weak; [apply (near_round _ _ _ _ _ u e N); [lra | exact E1] | | lra].
    assert (u * (1 + 1 + (0 + (1.01 * w + d + 1.1 * u + e))) <= u * 2.1) by (apply Rmult_le_compat_l; lra). lra. }
  assert (N3 : near (val (nsub A (none1 A) (ncos A t))) (1 - cos (val t)) (w + 2.1 * u + e) 2).
  { eapply near_weak; [apply (near_round _ _ _ _ _ u e Nc); [lra | exact E4] | | lra].
    assert (u * (2 + w) <= u * 2.1) by (apply Rmult_le_compat_l; lra). lra. }
  assert (N4 : near (val (nmul A (nsub A (none1 A) (ncos A t)) y)) ((1 - cos (val t)) * k2)
                 (1.1 * w + 4.6 * u + 8 * g + 14 * d + 4.1 * e) 2).
  { assert (N : near (val (nsub A (none1 A) (ncos A t)) * val y) ((1 - cos (val t)) * k2)
                     (1.1 * (w + 2.1 * u + e) + 2 * (4 * g + e + 7 * d)) 2).
    { eapply near_weak; [exact (near_mul _ _ _ _ _ _ _ _ N3 Hy) | | lra].
      assert ((w + 2.1 * u + e) * (4 * g + e + 7 * d) <= (w + 2.1 * u + e) * 0.1) by (apply Rmult_le_compat_l; lra). lra. }
    eapply near_weak; [apply (near_round _ _ _ _ _ u e N); [lra | exact E3] | | lra].
    assert (u * (2 + (1.1 * (w + 2.1 * u + e) + 2 * (4 * g + e + 7 * d))) <= u * 2.2) by (apply Rmult_le_compat_l; lra). lra. }
  pose proof (near_add _ _ _ _ _ _ _ _ N2 N4) as N.
  assert (N5 := near_round _ _ _ _ _ u e N (proj1 P1) E0). destruct N5 as [N5 _].
  eapply Rle_trans; [exact N5|].
  match goal with |- ?b + u * ?m + e <= _ => assert (u * m <= u * 4.3) by (apply Rmult_le_compat_l; lra) end. lra.
Qed.

Lemma unit_sq h : unit3 h -> vx h * vx h + vy h * vy h + vz h * vz h = 1. Proof. intros H. exact H. Qed.

Lemma rot_err hf h t : mfin (g_rot A hf t) -> rep_axis val d hf h -> frob (msub (mval (g_rot A hf t)) (rot h (val t))) <= 45 * (u + g + w + e + d).
Proof.
  intros F [U H].
  pose proof (unit_sq _ U) as U1.
  pose proof (Rle_0_sqr (vx h)) as X2. pose proof (Rle_0_sqr (vy h)) as Y2. pose proof (Rle_0_sqr (vz h)) as Z2. unfold Rsqr in *.
  assert (K0 : near (val (w0 hf)) (vx h) d 1).
  { split; [exact (Rle_trans _ _ _ (abs_vx_le_norm (vsub (vval hf) h)) H) | apply Rabs_le; nra]. }
  assert (K1 : near (val (w1 hf)) (vy h) d 1).
  { split; [exact (Rle_trans _ _ _ (abs_vy_le_norm (vsub (vval hf) h)) H) | apply Rabs_le; nra]. }
  assert (K2 : near (val (w2 hf)) (vz h) d 1).
  { split; [exact (Rle_trans _ _ _ (abs_vz_le_norm (vsub (vval hf) h)) H) | apply Rabs_le; nra]. }
  destruct F as ((F00 & F01 & F02) & (F10 & F11 & F12) & (F20 & F21 & F22)).
  unfold g_rot, v3zip, g_mm, v3map, g_hat, g_I3, v3cols, v3map in *. cbn [w0 w1 w2] in *.
  assert (Z : near (val (nzero A)) 0 d 1).
  { rewrite (proj2 (s_zero _ _ _ _ _ _ _ SA)). eapply near_weak; [apply near_refl with (m := 1); rewrite Rabs_R0; lra | lra | lra]. }
  assert (Zi : near (val (nzero A)) 0 0 1) by (rewrite (proj2 (s_zero _ _ _ _ _ _ _ SA)); apply near_refl; rewrite Rabs_R0; lra).
  assert (Oi : near (val (none1 A)) 1 0 1) by (rewrite (proj2 (s_one _ _ _ _ _ _ _ SA)); apply near_refl; rewrite Rabs_R1; lra).
  (* the negated entries *)
  assert (G : forall x, fin (nneg A x) -> forall y, near (val x) y d 1 -> near (val (nneg A x)) (- y) d 1).
  { intros x Fx y Hy. rewrite (proj2 (s_neg _ _ _ _ _ _ _ SA _ Fx)). apply near_opp. exact Hy. }
  assert (Fd : forall i s' x c y, fin (nadd A (nadd A i (nmul A s' x)) (nmul A c y)) -> fin x /\ fin y).
  { intros i s' x c y Hf. destruct (s_add _ _ _ _ _ _ _ SA _ _ Hf) as (G1 & G2 & _).
    destruct (s_add _ _ _ _ _ _ _ SA _ _ G1) as (_ & G3 & _).
    destruct (s_mul _ _ _ _ _ _ _ SA _ _ G3) as (_ & G4 & _). destruct (s_mul _ _ _ _ _ _ _ SA _ _ G2) as (_ & G5 & _). auto. }
  destruct (Fd _ _ _ _ _ F00) as [_ D00]. destruct (Fd _ _ _ _ _ F01) as [E01 D01]. destruct (Fd _ _ _ _ _ F02) as [_ D02].
  destruct (Fd _ _ _ _ _ F10) as [_ D10]. destruct (Fd _ _ _ _ _ F11) as [_ D11]. destruct (Fd _ _ _ _ _ F12) as [E12 D12].
  destruct (Fd _ _ _ _ _ F20) as [E20 D20]. destruct (Fd _ _ _ _ _ F21) as [_ D21]. destruct (Fd _ _ _ _ _ F22) as [_ D22].
  pose proof (G _ E01 _ K2) as N2. pose proof (G _ E12 _ K0) as N0. pose proof (G _ E20 _ K1) as N1.
  assert (V0 : vnear (w0 (g_hat A hf)) (V3 0 (- vz h) (vy h))) by (unfold vnear; cbn [g_hat w0 w1 w2 vx vy vz]; auto).
  assert (V1 : vnear (w1 (g_hat A hf)) (V3 (vz h) 0 (- vx h))) by (unfold vnear; cbn [g_hat w0 w1 w2 vx vy vz]; auto).
  assert (V2 : vnear (w2 (g_hat A hf)) (V3 (- vy h) (vx h) 0)) by (unfold vnear; cbn [g_hat w0 w1 w2 vx vy vz]; auto).
  assert (C0 : vnear (w0 (v3cols (g_hat A hf))) (V3 0 (vz h) (- vy h))) by (unfold vnear, v3cols, v3map; cbn [g_hat w0 w1 w2 vx vy vz]; auto).
  assert (C1 : vnear (w1 (v3cols (g_hat A hf))) (V3 (- vz h) 0 (vx h))) by (unfold vnear, v3cols, v3map; cbn [g_hat w0 w1 w2 vx vy vz]; auto).
  assert (C2 : vnear (w2 (v3cols (g_hat A hf))) (V3 (vy h) (- vx h) 0)) by (unfold vnear, v3cols, v3map; cbn [g_hat w0 w1 w2 vx vy vz]; auto).
  assert (R00 : Rabs (dot (V3 0 (- vz h) (vy h)) (V3 0 (vz h) (- vy h))) <= 1) by (unfold dot; cbn [vx vy vz]; apply Rabs_le; nra).
  pose proof (rot_entry _ _ _ _ 1 (0) _ F00 Oi Z (dot3_near _ _ _ _ D00 V0 C0 R00)) as Q00.
  assert (R01 : Rabs (dot (V3 0 (- vz h) (vy h)) (V3 (- vz h) 0 (vx h))) <= 1) by (unfold dot; cbn [vx vy vz]; apply Rabs_le; nra).
  pose proof (rot_entry _ _ _ _ 0 (- vz h) _ F01 Zi N2 (dot3_near _ _ _ _ D01 V0 C1 R01)) as Q01.
  assert (R02 : Rabs (dot (V3 0 (- vz h) (vy h)) (V3 (vy h) (- vx h) 0)) <= 1) by (unfold dot; cbn [vx vy vz]; apply Rabs_le; nra).
  pose proof (rot_entry _ _ _ _ 0 (vy h) _ F02 Zi K1 (dot3_near _ _ _ _ D02 V0 C2 R02)) as Q02.
  assert (R10 : Rabs (dot (V3 (vz h) 0 (- vx h)) (V3 0 (vz h) (- vy h))) <= 1) by (unfold dot; cbn [vx vy vz]; apply Rabs_le; nra).
  pose proof (rot_entry _ _ _ _ 0 (vz h) _ F10 Zi K2 (dot3_near _ _ _ _ D10 V1 C0 R10)) as Q10.
  assert (R11 : Rabs (dot (V3 (vz h) 0 (- vx h)) (V3 (- vz h) 0 (vx h))) <= 1) by (unfold dot; cbn [vx vy vz]; apply Rabs_le; nra).
  pose proof (rot_entry _ _ _ _ 1 (0) _ F11 Oi Z (dot3_near _ _ _ _ D11 V1 C1 R11)) as Q11.
  assert (R12 : Rabs (dot (V3 (vz h) 0 (- vx h)) (V3 (vy h) (- vx h) 0)) <= 1) by (unfold dot; cbn [vx vy vz]; apply Rabs_le; nra).
  pose proof (rot_entry _ _ _ _ 0 (- vx h) _ F12 Zi N0 (dot3_near _ _ _ _ D12 V1 C2 R12)) as Q12.
  assert (R20 : Rabs (dot (V3 (- vy h) (vx h) 0) (V3 0 (vz h) (- vy h))) <= 1) by (unfold dot; cbn [vx vy vz]; apply Rabs_le; nra).
  pose proof (rot_entry _ _ _ _ 0 (- vy h) _ F20 Zi N1 (dot3_near _ _ _ _ D20 V2 C0 R20)) as Q20.
  assert (R21 : Rabs (dot (V3 (- vy h) (vx h) 0) (V3 (- vz h) 0 (vx h))) <= 1) by (unfold dot; cbn [vx vy vz]; apply Rabs_le; nra).
  pose proof (rot_entry _ _ _ _ 0 (vx h) _ F21 Zi K0 (dot3_near _ _ _ _ D21 V2 C1 R21)) as Q21.
  assert (R22 : Rabs (dot (V3 (- vy h) (vx h) 0) (V3 (vy h) (- vx h) 0)) <= 1) by (unfold dot; cbn [vx vy vz]; apply Rabs_le; nra).
  pose proof (rot_entry _ _ _ _ 1 (0) _ F22 Oi Z (dot3_near _ _ _ _ D22 V2 C2 R22)) as Q22.
  apply Rle_trans with (3 * (15 * (u + g + w + e + d))); [|lra].
  destruct small as (P1 & P2 & P3 & P4 & P5).
  eapply Rle_trans; [|apply frob_mconst; lra]. apply frob_mono.
  split; [|split]; (split; [|split]); assumption.
Qed.
End Rot.

(* ---- forward kinematics ---- *)
Definition tclose (c : R) (T : gtf A) (Q : mat3) (p : vec3) (L : R) : Prop :=
  mclose c (gR T) Q /\ vclose c (gp T) p L /\ s <= L.
Notation tfin := (tfin fin).

Hypothesis rho_rot : forall hf h t, mfin (g_rot A hf t) -> rep_axis val d hf h ->
  frob (msub (mval (g_rot A hf t)) (rot h (val t))) <= rho.
Hypothesis rho_d : d <= rho.
Lemma mclose_rot hf h t : mfin (g_rot A hf t) -> rep_axis val d hf h -> mclose (1 + rho) (g_rot A hf t) (rot h (val t)).
Proof. intros F H. split; [pose proof (rho_rot _ _ _ F H); lra | apply rot_SO3; apply H]. Qed.
Lemma sg_nonneg : 0 <= sg. Proof. lra. Qed.
Lemma rho_nonneg : 0 <= rho. Proof. lra. Qed.
Lemma growr c : 1 <= c -> 1 <= c * (1 + rho). Proof. intros. pose proof rho_nonneg. nra. Qed.
Lemma growr' c : 1 <= c -> c <= c * (1 + rho). Proof. intros. pose proof rho_nonneg. nra. Qed.
Lemma powr_ge1 n : 1 <= (1 + rho) ^ n. Proof. apply pow_R1_Rle. pose proof rho_nonneg. lra. Qed.
Lemma grow c : 1 <= c -> c <= c * (1 + sg). Proof. intros. pose proof sg_nonneg. nra. Qed.
Lemma grow1 c : 1 <= c -> 1 <= c * (1 + sg). Proof. intros. pose proof (grow c). lra. Qed.
Lemma pow_ge1 n : 1 <= (1 + sg) ^ n. Proof. apply pow_R1_Rle. pose proof sg_nonneg. lra. Qed.
Lemma vclose_wider c x v L L' : 1 <= c -> L <= L' -> vclose c x v L -> vclose c x v L'.
Proof. intros H1 H2 [H3 H4]. split; [nra | lra]. Qed.
Lemma tclose_mono c c' T Q p L : c <= c' -> tclose c T Q p L -> tclose c' T Q p L.
Proof.
  intros H (H1 & H2 & H3). split; [eapply mclose_mono; eassumption|]. split; [|exact H3].
  eapply vclose_mono; [exact H | lra | exact H2].
Qed.

(** p + R q with R and q already computed *)
Lemma close_move c c' T Q p L M N x v L' :
  1 <= c -> c <= c' -> vfin (g_vadd A (gp T) (g_mv A M x)) -> tclose c T Q p L -> mclose c' M N ->
  vclose 1 x v L' -> s <= L' ->
  vclose (c' * (1 + sg) * (1 + sg)) (g_vadd A (gp T) (g_mv A M x)) (vadd p (mvec N v)) (L + L').
Proof.
  intros Hc Hc' F (HM & Hp & HL) HN Hx HL'.
  destruct (add_err _ _ F) as (_ & F2 & _).
  apply vclose_add; [apply grow1; lra | exact HL | exact HL' | exact F | |].
  - eapply vclose_mono; [|lra|exact Hp]. pose proof (grow c'). lra.
  - replace (c' * (1 + sg)) with (c' * 1 * (1 + sg)) by ring.
    apply vclose_mv; [lra | lra | exact HL' | exact F2 | exact HN | exact Hx].
Qed.

Lemma close_tmul a b T T' Q p L Q' p' L' : 1 <= a -> 1 <= b -> tfin (g_tmul A T T') ->
  tclose a T Q p L -> tclose b T' Q' p' L' ->
  tclose (a * b * (1 + sg) ^ 2) (g_tmul A T T') (mmul Q Q') (vadd p (mvec Q p')) (L + L').
Proof.
  intros Ha Hb [FR Fp] (HM & Hp & HL) (HM' & Hp' & HL'). cbn [g_tmul gR gp] in *.
  destruct (add_err _ _ Fp) as (_ & F2 & _).
  assert (AB : 1 <= a * b) by (rewrite <- (Rmult_1_l 1); apply Rmult_le_compat; lra).
  replace (a * b * (1 + sg) ^ 2) with (a * b * (1 + sg) * (1 + sg)) by ring.
  split; [|split; [|lra]].
  - eapply mclose_mono; [apply grow, grow1; exact AB|]. apply mclose_mul; assumption.
  - cbn [g_tmul gp]. apply vclose_add; [apply grow1; exact AB | exact HL | exact HL' | exact Fp | |].
    + eapply vclose_mono; [|lra|exact Hp]. pose proof (grow (a * b) AB). assert (a * 1 <= a * b) by (apply Rmult_le_compat_l; lra). lra.
    + apply vclose_mv; assumption.
Qed.

Definition span_joint (ty : jtype) (t : R) : R := match ty with Prismatic | Mobile3 => Rabs t + s | _ => 0 end.

Lemma close_step ty hf h pf t T Q p c L :
  1 <= c -> tfin (g_fk_step A ty hf pf t T) -> rep_axis val d hf h ->
  tclose c T Q p L ->
  tclose (c * (1 + rho) * (1 + sg) ^ 4) (g_fk_step A ty hf pf t T)
    (fst (fk_step ty h (vval pf) (val t) Q p)) (snd (fk_step ty h (vval pf) (val t) Q p))
    (L + (norm (vval pf) + s) + span_joint ty (val t)).
Proof.
  intros Hc F HH HT.
  pose proof (growr c Hc) as G1. pose proof (grow1 _ G1) as G2. pose proof (grow1 _ G2) as G3. pose proof (grow1 _ G3) as G4.
  pose proof (growr' c Hc) as L1. pose proof (grow _ G1) as L2. pose proof (grow _ G2) as L3. pose proof (grow _ G3) as L4.
  pose proof (grow _ G4) as L5. pose proof (grow1 _ Hc) as G1'. pose proof rho_nonneg as R0. pose proof sg_nonneg as S0.
  replace (c * (1 + rho) * (1 + sg) ^ 4) with (c * (1 + rho) * (1 + sg) * (1 + sg) * (1 + sg) * (1 + sg)) by ring.
  pose proof (norm_nonneg (vval pf)) as Pn. pose proof (Rabs_pos (val t)) as Pt.
  assert (HP : vclose 1 pf (vval pf) (norm (vval pf) + s)) by (apply vclose_exact; lra).
  destruct HT as (HM & Hp & HL). destruct F as [FR Fp].
  assert (Hrot : ty = Rotary \/ ty = Mobile2 \/ ty = Prismatic \/ ty = Mobile3) by (destruct ty; auto).
  assert (CR : ty = Rotary \/ ty = Mobile2 ->
    tclose (c * (1 + rho) * (1 + sg) * (1 + sg) * (1 + sg) * (1 + sg)) (g_fk_step A ty hf pf t T)
      (fst (fk_step ty h (vval pf) (val t) Q p)) (snd (fk_step ty h (vval pf) (val t) Q p))
      (L + (norm (vval pf) + s) + span_joint ty (val t))).
  { intros Ety.
    assert (ES : span_joint ty (val t) = 0) by (destruct Ety as [-> | ->]; reflexivity). rewrite ES, Rplus_0_r.
    assert (E1 : g_fk_step A ty hf pf t T = GT (g_mm A (gR T) (g_rot A hf t)) (g_vadd A (gp T) (g_mv A (g_mm A (gR T) (g_rot A hf t)) pf)))
      by (destruct Ety as [-> | ->]; reflexivity).
    assert (E2 : fk_step ty h (vval pf) (val t) Q p = (mmul Q (rot h (val t)), vadd p (mvec (mmul Q (rot h (val t))) (vval pf))))
      by (destruct Ety as [-> | ->]; reflexivity).
    rewrite E1 in *. rewrite E2. cbn [gR gp fst snd] in *.
    destruct (mm_err _ _ FR) as (_ & FK & _).
    assert (HR : mclose (c * (1 + rho) * (1 + sg)) (g_mm A (gR T) (g_rot A hf t)) (mmul Q (rot h (val t)))).
    { apply mclose_mul; [exact Hc | lra | exact FR | exact HM | apply mclose_rot; assumption]. }
    split; [|split; [|lra]].
    - cbn [gR]. eapply mclose_mono; [|exact HR]. lra.
    - cbn [gp]. eapply vclose_mono; [exact L5 | lra |].
      apply close_move with (c := c) (Q := Q); [exact Hc | lra | exact Fp | split; [exact HM | split; assumption] | exact HR | exact HP | lra]. }
  assert (CP : ty = Prismatic \/ ty = Mobile3 ->
    tclose (c * (1 + rho) * (1 + sg) * (1 + sg) * (1 + sg) * (1 + sg)) (g_fk_step A ty hf pf t T)
      (fst (fk_step ty h (vval pf) (val t) Q p)) (snd (fk_step ty h (vval pf) (val t) Q p))
      (L + (norm (vval pf) + s) + span_joint ty (val t))).
  { intros Ety.
    assert (ES : span_joint ty (val t) = Rabs (val t) + s) by (destruct Ety as [-> | ->]; reflexivity). rewrite ES.
    set (p' := g_vadd A (gp T) (v3map (nmul A t) (g_mv A (gR T) hf))).
    assert (E1 : g_fk_step A ty hf pf t T = GT (gR T) (g_vadd A p' (g_mv A (gR T) pf)))
      by (destruct Ety as [-> | ->]; reflexivity).
    assert (E2 : fk_step ty h (vval pf) (val t) Q p = (Q, vadd (vadd p (vscale (val t) (mvec Q h))) (mvec Q (vval pf))))
      by (destruct Ety as [-> | ->]; reflexivity).
    rewrite E1 in *. rewrite E2. cbn [gR gp fst snd] in *.
    destruct (add_err _ _ Fp) as (Fp' & _ & _). destruct (add_err _ _ Fp') as (_ & Fs & _).
    destruct (scale_err _ _ Fs) as (_ & Fm & _).
    assert (Hh : vclose (1 + rho) hf h 1).
    { destruct HH as [U HH]. split; [lra | rewrite (norm_unit h U); lra]. }
    assert (Hm : vclose (c * (1 + rho) * (1 + sg)) (g_mv A (gR T) hf) (mvec Q h) 1).
    { apply vclose_mv; [exact Hc | lra | lra | exact Fm | exact HM | exact Hh]. }
    assert (Ht : vclose (c * (1 + rho) * (1 + sg) * (1 + sg)) (v3map (nmul A t) (g_mv A (gR T) hf)) (vscale (val t) (mvec Q h)) (Rabs (val t) + s)).
    { apply vclose_scale; [lra | exact Fs | exact Hm]. }
    assert (Hp' : vclose (c * (1 + rho) * (1 + sg) * (1 + sg) * (1 + sg)) p' (vadd p (vscale (val t) (mvec Q h))) (L + (Rabs (val t) + s))).
    { apply vclose_add; [lra | exact HL | lra | exact Fp' | eapply vclose_mono; [|lra|exact Hp]; lra | exact Ht]. }
    destruct (add_err _ _ Fp) as (_ & Fq & _).
    split; [|split; [|lra]].
    - cbn [gR]. eapply mclose_mono; [|exact HM]. lra.
    - cbn [gp]. replace (L + (norm (vval pf) + s) + (Rabs (val t) + s)) with (L + (Rabs (val t) + s) + (norm (vval pf) + s)) by ring.
      apply vclose_add; [lra | lra | lra | exact Fp | exact Hp' |].
      eapply vclose_mono with (c := c * 1 * (1 + sg)); [|lra|].
      { assert (c * (1 + sg) <= c * (1 + rho) * (1 + sg)) by (apply Rmult_le_compat_r; lra). lra. }
      apply vclose_mv; [lra | lra | lra | exact Fq | exact HM | exact HP]. }
  destruct Hrot as [E | [E | [E | E]]]; [apply CR | apply CR | apply CP | apply CP]; auto.
Qed.

Lemma fin_step ty hf pf t T : tfin (g_fk_step A ty hf pf t T) -> tfin T.
Proof.
  intros [FR Fp]. destruct ty; cbn [g_fk_step gR gp] in *.
  - destruct (mm_err _ _ FR) as (F1 & _). destruct (add_err _ _ Fp) as (F2 & _). split; assumption.
  - destruct (add_err _ _ Fp) as (F1 & _). destruct (add_err _ _ F1) as (F2 & _). split; assumption.
  - destruct (mm_err _ _ FR) as (F1 & _). destruct (add_err _ _ Fp) as (F2 & _). split; assumption.
  - destruct (add_err _ _ Fp) as (F1 & _). destruct (add_err _ _ F1) as (F2 & _). split; assumption.
Qed.
Lemma fin_tmul T T' : tfin (g_tmul A T T') -> tfin T /\ tfin T'.
Proof.
  intros [FR Fp]. cbn [g_tmul gR gp] in *. destruct (mm_err _ _ FR) as (F1 & F2 & _).
  destruct (add_err _ _ Fp) as (F3 & F4 & _). destruct (mv_err _ _ F4) as (_ & F5 & _). repeat split; assumption || apply F1 || apply F2 || apply F3 || apply F5.
Qed.

Lemma fin_loop ty : forall H P theta T T', g_fk_loop A ty H P theta T = Ok T' -> tfin T' -> tfin T.
Proof.
  induction ty as [|j ty IH]; intros H P theta T T' E F; cbn [g_fk_loop] in E; [congruence|].
  destruct H as [|h H]; [discriminate|]. destruct P as [|pn P]; [discriminate|]. destruct theta as [|t theta]; [discriminate|].
  eapply fin_step. eapply IH; eassumption.
Qed.

Lemma span_links_nonneg P : 0 <= span_links s P.
Proof. induction P as [|p P IH]; cbn [span_links fold_right]; [lra|]. fold (span_links s P). pose proof (norm_nonneg p). lra. Qed.
Lemma span_joints_cons ty t tys ts : span_joints s (ty :: tys) (t :: ts) = span_joint ty t + span_joints s tys ts.
Proof. destruct ty; cbn [span_joints span_joint]; ring. Qed.

Lemma close_loop ty : forall Hf H Pf theta T T' Q p c L,
  g_fk_loop A ty Hf Pf theta T = Ok T' -> tfin T' -> Forall2 (rep_axis val d) Hf H -> 1 <= c -> tclose c T Q p L ->
  exists Q' p', fk_loop ty H (map vval Pf) (map val theta) Q p = Ok (Q', p') /\
    tclose (c * ((1 + rho) * (1 + sg) ^ 4) ^ length ty) T' Q' p' (L + span_links s (map vval Pf) + span_joints s ty (map val theta)).
Proof.
  induction ty as [|j ty IH]; intros Hf H Pf theta T T' Q p c L E F HH Hc HT; cbn [g_fk_loop fk_loop] in *.
  - injection E as <-. exists Q, p. split; [reflexivity|]. cbn [length span_joints]. rewrite pow_O, Rmult_1_r, Rplus_0_r.
    destruct HT as (HM & Hp & HL). pose proof (span_links_nonneg (map vval Pf)).
    split; [exact HM|]. split; [|lra]. eapply vclose_wider; [exact Hc | | exact Hp]. lra.
  - destruct Hf as [|hf Hf]; [discriminate|]. destruct Pf as [|pf Pf]; [discriminate|]. destruct theta as [|t theta]; [discriminate|].
    inversion HH as [|? h ? H' HX HY]; subst. cbn [map].
    pose proof (fin_loop _ _ _ _ _ _ E F) as F1.
    pose proof (close_step _ _ _ _ _ _ _ _ _ _ Hc F1 HX HT) as C1.
    destruct (fk_step j h (vval pf) (val t) Q p) as [Q1 p1] eqn:ES. cbn [fst snd] in C1.
    edestruct IH as (Q' & p' & E' & C'); [exact E | exact F | exact HY | | exact C1 |].
    { apply ge1_mul; [apply growr; exact Hc | apply pow_ge1]. }
    exists Q', p'. split; [exact E'|].
    rewrite span_joints_cons. cbn [span_links fold_right]. fold (span_links s (map vval Pf)).
    replace (c * ((1 + rho) * (1 + sg) ^ 4) ^ length (j :: ty)) with (c * (1 + rho) * (1 + sg) ^ 4 * ((1 + rho) * (1 + sg) ^ 4) ^ length ty)
      by (cbn [length pow]; ring).
    replace (L + (norm (vval pf) + s + span_links s (map vval Pf)) + (span_joint j (val t) + span_joints s ty (map val theta)))
      with (L + (norm (vval pf) + s) + span_joint j (val t) + span_links s (map vval Pf) + span_joints s ty (map val theta)) by ring.
    exact C'.
Qed.

Lemma close_rep Tf T : rep_tf val d Tf T -> tclose (1 + rho) Tf (tR T) (tp T) (norm (tp T) + s).
Proof.
  intros (S & H & E). pose proof rho_nonneg. pose proof (norm_nonneg (tp T)).
  split; [split; [lra | exact S]|]. split; [|lra]. rewrite <- E.
  eapply vclose_mono; [| |apply vclose_exact]; [lra | |]; pose proof (norm_nonneg (vval (gp Tf))); lra.
Qed.

Lemma aux_ge1 : 1 <= (1 + rho) * (1 + sg) ^ 2.
Proof. apply ge1_mul; [pose proof rho_nonneg; lra | apply pow_ge1]. Qed.
Lemma joint_ge1 n : 1 <= ((1 + rho) * (1 + sg) ^ 4) ^ n.
Proof. apply pow_R1_Rle. apply ge1_mul; [pose proof rho_nonneg; lra | apply pow_ge1]. Qed.

Definition tclose' c T' (T : transform) L := tclose c T' (tR T) (tp T) L.

Lemma close_aux_r c T' T L o o' : 1 <= c -> rep_opt (rep_tf val d) o o' ->
  tfin (match o with Some F => g_tmul A T' F | None => T' end) ->
  tclose' c T' T L ->
  tclose' (c * ((1 + rho) * (1 + sg) ^ 2)) (match o with Some F => g_tmul A T' F | None => T' end)
    (match o' with Some F => tmul T F | None => T end) (L + span_tf s o').
Proof.
  intros Hc Ho F HT. destruct o as [Ff|], o' as [F'|]; cbn [rep_opt span_tf] in *; try tauto.
  - pose proof (close_tmul _ _ _ _ _ _ _ _ _ _ Hc (ltac:(pose proof rho_nonneg; lra) : 1 <= 1 + rho) F HT (close_rep _ _ Ho)) as K.
    replace (c * ((1 + rho) * (1 + sg) ^ 2)) with (c * (1 + rho) * (1 + sg) ^ 2) by ring. exact K.
  - rewrite Rplus_0_r. eapply tclose_mono; [|exact HT]. pose proof aux_ge1. nra.
Qed.
Lemma close_aux_l c T' T L o o' : 1 <= c -> rep_opt (rep_tf val d) o o' ->
  tfin (match o with Some F => g_tmul A F T' | None => T' end) ->
  tclose' c T' T L ->
  tclose' (c * ((1 + rho) * (1 + sg) ^ 2)) (match o with Some F => g_tmul A F T' | None => T' end)
    (match o' with Some F => tmul F T | None => T end) (L + span_tf s o').
Proof.
  intros Hc Ho F HT. destruct o as [Ff|], o' as [F'|]; cbn [rep_opt span_tf] in *; try tauto.
  - pose proof (close_tmul _ _ _ _ _ _ _ _ _ _ (ltac:(pose proof rho_nonneg; lra) : 1 <= 1 + rho) Hc F (close_rep _ _ Ho) HT) as K.
    replace (c * ((1 + rho) * (1 + sg) ^ 2)) with ((1 + rho) * c * (1 + sg) ^ 2) by ring. rewrite (Rplus_comm L). exact K.
  - rewrite Rplus_0_r. eapply tclose_mono; [|exact HT]. pose proof aux_ge1. nra.
Qed.

Lemma close_apply_aux rf r c T' T L : represents fin val d rf r -> 1 <= c -> tfin (g_apply_aux A rf T') -> tclose' c T' T L ->
  tclose' (c * ((1 + rho) * (1 + sg) ^ 2) ^ 3) (g_apply_aux A rf T') (apply_aux r T)
    (L + span_tf s (rflange r) + span_tf s (tool_transform r) + span_tf s (rbase r)).
Proof.
  intros Hr Hc F HT. destruct Hr as [_ _ _ _ _ Ht Hf Hb]. unfold g_apply_aux, apply_aux in *.
  set (T1' := match grflange rf with Some F => g_tmul A T' F | None => T' end) in *.
  set (T2' := match grtool rf with Some W => g_tmul A T1' W | None => T1' end) in *.
  set (T1 := match rflange r with Some F => tmul T F | None => T end).
  set (T2 := match tool_transform r with Some W => tmul T1 W | None => T1 end).
  assert (F2 : tfin T2') by (destruct (grbase rf); [apply fin_tmul in F; tauto | exact F]).
  assert (F1 : tfin T1') by (unfold T2' in F2; destruct (grtool rf); [apply fin_tmul in F2; tauto | exact F2]).
  pose proof aux_ge1 as G.
  assert (C1 : 1 <= c * ((1 + rho) * (1 + sg) ^ 2)) by (apply ge1_mul; assumption).
  assert (C2 : 1 <= c * ((1 + rho) * (1 + sg) ^ 2) * ((1 + rho) * (1 + sg) ^ 2)) by (apply ge1_mul; assumption).
  pose proof (close_aux_r _ _ _ _ _ _ Hc Hf F1 HT) as K1.
  pose proof (close_aux_r _ _ _ _ _ _ C1 Ht F2 K1) as K2.
  pose proof (close_aux_l _ _ _ _ _ _ C2 Hb F K2) as K3.
  replace (c * ((1 + rho) * (1 + sg) ^ 2) ^ 3) with (c * ((1 + rho) * (1 + sg) ^ 2) * ((1 + rho) * (1 + sg) ^ 2) * ((1 + rho) * (1 + sg) ^ 2)) by ring. exact K3.
Qed.
Lemma fin_apply_aux rf T' : tfin (g_apply_aux A rf T') -> tfin T'.
Proof.
  unfold g_apply_aux. intros F.
  set (T1' := match grflange rf with Some F => g_tmul A T' F | None => T' end) in *.
  set (T2' := match grtool rf with Some W => g_tmul A T1' W | None => T1' end) in *.
  assert (F2 : tfin T2') by (destruct (grbase rf); [apply fin_tmul in F; tauto | exact F]).
  assert (F1 : tfin T1') by (unfold T2' in F2; destruct (grtool rf); [apply fin_tmul in F2; tauto | exact F2]).
  unfold T1' in F1. destruct (grflange rf); [apply fin_tmul in F1; tauto | exact F1].
Qed.

Lemma all_agree f f' a b a' b' : Forall2 (rep_num fin val) a a' -> Forall2 (rep_num fin val) b b' ->
  (forall x y, fin x -> fin y -> f x y = f' (val x) (val y)) -> g_all A f a b = all2 f' a' b'.
Proof.
  intros Ha Hb Hf.
  assert (L : forall x x', Forall2 (rep_num fin val) x x' -> length x = length x') by (induction 1; cbn [length]; congruence).
  unfold g_all, all2. rewrite (L _ _ Ha), (L _ _ Hb).
  assert (EC : forall a a', Forall2 (rep_num fin val) a a' -> forall b b', Forall2 (rep_num fin val) b b' ->
     forallb (fun p => f (fst p) (snd p)) (combine a b) = forallb (fun p => f' (fst p) (snd p)) (combine a' b')).
  { clear Ha Hb. induction 1 as [|x x' l l' [Fx Ex] Hl IH]; intros m m' Hm; [reflexivity|].
    destruct Hm as [|y y' m m' [Fy Ey] Hm]; [reflexivity|]. cbn [combine forallb fst snd].
    rewrite (IH _ _ Hm), (Hf x y Fx Fy), Ex, Ey. reflexivity. }
  assert (E1 : forall x x' b b', rep_num fin val x x' -> Forall2 (rep_num fin val) b b' -> forallb (fun y => f x y) b = forallb (fun y => f' x' y) b').
  { intros x x' m m' [Fx Ex]. induction 1 as [|y y' m m' [Fy Ey] Hm IH]; [reflexivity|]. cbn [forallb].
    rewrite IH, (Hf x y Fx Fy), Ex, Ey. reflexivity. }
  assert (E2 : forall y y' b b', rep_num fin val y y' -> Forall2 (rep_num fin val) b b' -> forallb (fun x => f x y) b = forallb (fun x => f' x y') b').
  { intros x x' m m' [Fx Ex]. induction 1 as [|y y' m m' [Fy Ey] Hm IH]; [reflexivity|]. cbn [forallb].
    rewrite IH, (Hf y x Fy Fx), Ex, Ey. reflexivity. }
  destruct (Nat.eqb (length a') (length b')); [rewrite (EC _ _ Ha _ _ Hb); reflexivity|].
  inversion Ha as [|x x' l l' Hx Hl E1' E2']; subst.
  - inversion Hb as [|y y' m m' Hy Hm]; subst; [reflexivity|]. inversion Hm; subst; reflexivity.
  - inversion Hl as [|x2 x2' l2 l2' Hx2 Hl2]; subst; [rewrite (E1 _ _ _ _ Hx Hb); reflexivity|].
    inversion Hb as [|y y' m m' Hy Hm]; subst; [reflexivity|].
    inversion Hm as [|y2 y2' m2 m2' Hy2 Hm2]; subst; [|reflexivity].
    rewrite (E2 _ _ _ _ Hy Ha). reflexivity.
Qed.

Lemma limits_agree rf r theta ignore : represents fin val d rf r -> Forall fin theta ->
  g_check_limits A rf theta ignore = check_limits r (map val theta) ignore.
Proof.
  clear pos sg_def s_pos e_small rho_rot rho_d. intros [_ _ _ Hl Hu _ _ _] Ht. unfold g_check_limits, check_limits. destruct ignore; [reflexivity|].
  assert (HT : Forall2 (rep_num fin val) theta (map val theta)).
  { induction Ht as [|x l Hx Hl' IH]; cbn [map]; constructor; [split; auto | exact IH]. }
  destruct (grlower rf) as [l|], (rlower r) as [l'|]; cbn [rep_opt] in Hl; try tauto.
  destruct (grupper rf) as [m|], (rupper r) as [m'|]; cbn [rep_opt] in Hu; try tauto.
  rewrite (all_agree (fun t b => nle A b t) (fun t b => Rleb b t) _ _ _ _ HT Hl) by (intros; apply (s_le _ _ _ _ _ _ _ SA); assumption).
  rewrite (all_agree (fun t b => nle A t b) (fun t b => Rleb t b) _ _ _ _ HT Hu) by (intros; apply (s_le _ _ _ _ _ _ _ SA); assumption).
  reflexivity.
Qed.

Lemma loop_error ty : forall Hf H Pf theta T Q p, Forall2 (rep_axis val d) Hf H ->
  match g_fk_loop A ty Hf Pf theta T, fk_loop ty H (map vval Pf) (map val theta) Q p with
  | Ok _, Ok _ => True | Err x, Err y => x = y | _, _ => False end.
Proof.
  induction ty as [|j ty IH]; intros Hf H Pf theta T Q p HH; cbn [g_fk_loop fk_loop]; [exact I|].
  destruct HH as [|hf h Hf H HX HY]; [reflexivity|]. destruct Pf as [|pf Pf]; [reflexivity|]. destruct theta as [|t theta]; [reflexivity|].
  cbn [map]. destruct (fk_step j h (vval pf) (val t) Q p) as [Q1 p1]. apply IH. exact HY.
Qed.

Theorem fwdkin_error rf r theta ignore x : represents fin val d rf r -> Forall fin theta ->
  (g_fwdkin A rf theta ignore = Err x <-> fwdkin r (map val theta) ignore = Err x).
Proof.
  clear pos sg_def s_pos e_small rho_rot rho_d. intros Hr Ht. unfold g_fwdkin, fwdkin. rewrite (limits_agree _ _ _ _ Hr Ht).
  destruct (check_limits r (map val theta) ignore) as [|y]; cbn [bind]; [|split; congruence].
  pose proof (rep_P _ _ _ _ _ Hr) as EP. rewrite <- EP. destruct (grP rf) as [|p0 P]; cbn [map]; [split; congruence|].
  rewrite (rep_type _ _ _ _ _ Hr).
  pose proof (loop_error (rtype r) (grH rf) (rH r) P theta (GT (g_I3 A) p0) I3 (vval p0) (rep_H _ _ _ _ _ Hr)) as K.
  destruct (g_fk_loop A (rtype r) (grH rf) P theta (GT (g_I3 A) p0)) as [T1|y1], (fk_loop (rtype r) (rH r) (map vval P) (map val theta) I3 (vval p0)) as [T2|y2];
    cbn [bind] in *; try tauto; [split; discriminate | subst; split; congruence].
Qed.

Theorem fwdkin_rounding rf r theta ignore T' : represents fin val d rf r -> Forall fin theta ->
  g_fwdkin A rf theta ignore = Ok T' -> tfin T' ->
  exists T, fwdkin r (map val theta) ignore = Ok T /\
    tclose' (((1 + rho) * (1 + sg) ^ 4) ^ length (rtype r) * ((1 + rho) * (1 + sg) ^ 2) ^ 3) T' T (span s r (map val theta)).
Proof.
  intros Hr Ht E F. unfold g_fwdkin, fwdkin in *. rewrite (limits_agree _ _ _ _ Hr Ht) in E.
  destruct (check_limits r (map val theta) ignore) as [|y]; cbn [bind] in *; [|discriminate].
  pose proof (rep_P _ _ _ _ _ Hr) as EP. unfold span. rewrite <- EP. destruct (grP rf) as [|p0 P]; cbn [map]; [discriminate|].
  rewrite (rep_type _ _ _ _ _ Hr) in E.
  destruct (g_fk_loop A (rtype r) (grH rf) P theta (GT (g_I3 A) p0)) as [T1|y1] eqn:E1; cbn [bind] in E; [|discriminate].
  injection E as <-. pose proof (fin_apply_aux _ _ F) as F1.
  assert (C0 : tclose 1 (GT (g_I3 A) p0) I3 (vval p0) (norm (vval p0) + s)).
  { pose proof (norm_nonneg (vval p0)). split; [|split; [apply vclose_exact; cbn [gp]; lra | lra]].
    split; [|apply SO3_I]. cbn [gR]. unfold g_I3, SpecRound.mval. cbn [w0 w1 w2].
    rewrite (proj2 (s_zero _ _ _ _ _ _ _ SA)), (proj2 (s_one _ _ _ _ _ _ _ SA)).
    replace (msub _ I3) with (mconst 0) by (unfold mconst; la_ring). pose proof (frob_mconst 0). lra. }
  destruct (close_loop _ _ _ _ _ _ _ _ _ _ _ E1 F1 (rep_H _ _ _ _ _ Hr) (Rle_refl 1) C0) as (Q' & p' & E2 & C2).
  rewrite E2. cbn [bind fst snd]. eexists. split; [reflexivity|].
  pose proof (joint_ge1 (length (rtype r))) as G.
  pose proof (close_apply_aux rf r _ T1 (Tf Q' p' None None) _ Hr (ltac:(lra) : 1 <= 1 * ((1 + rho) * (1 + sg) ^ 4) ^ length (rtype r)) F C2) as K.
  rewrite Rmult_1_l in K. cbn [span_links fold_right]. fold (span_links s (map vval P)). exact K.
Qed.

(* ---- products of transforms ---- *)
Lemma prod_rounding l : forall l' c T T0 L T', Forall2 (rep_tf val d) l l' -> 1 <= c ->
  fold_left (g_tmul A) l T = T' -> tfin T' -> tclose' c T T0 L ->
  tclose' (c * ((1 + rho) * (1 + sg) ^ 2) ^ length l) T' (fold_left tmul l' T0) (L + fold_right (fun T x => norm (tp T) + s + x) 0 l').
Proof.
  induction l as [|F l IH]; intros l' c T T0 L T' HF Hc E FT HT; inversion HF as [|? F' ? l1 HX HY]; subst; cbn [fold_left fold_right length].
  - rewrite pow_O, Rmult_1_r, Rplus_0_r. exact HT.
  - assert (FX : tfin (g_tmul A T F)).
    { clear - FT SA. cbn [fold_left] in FT. revert FT. generalize (g_tmul A T F). induction l as [|G l IH]; intros X FX; cbn [fold_left] in *; [exact FX|].
      apply IH in FX. apply fin_tmul in FX. apply FX. }
    pose proof (close_tmul _ _ _ _ _ _ _ _ _ _ Hc (ltac:(pose proof rho_nonneg; lra) : 1 <= 1 + rho) FX HT (close_rep _ _ HX)) as K.
    specialize (IH l1 (c * (1 + rho) * (1 + sg) ^ 2) (g_tmul A T F) (tmul T0 F') (L + (norm (tp F') + s)) (fold_left (g_tmul A) l (g_tmul A T F)) HY).
    replace (c * ((1 + rho) * (1 + sg) ^ 2) ^ S (length l)) with (c * (1 + rho) * (1 + sg) ^ 2 * ((1 + rho) * (1 + sg) ^ 2) ^ length l) by (cbn [pow]; ring).
    match goal with |- tclose' _ _ _ (L + (?a + ?b)) => replace (L + (a + b)) with (L + a + b) by ring end.
    apply IH; [|reflexivity | exact FT | exact K].
    apply ge1_mul; [apply growr; exact Hc | apply pow_ge1].
Qed.

End Round.
