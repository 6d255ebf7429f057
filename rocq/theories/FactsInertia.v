(** Facts about the inertia matrices of the URDF loader. *)
From Coq Require Import Reals ZArith String List Bool Lra Lia.
From Verif Require Import LinAlg RealAux Py FactsReal FactsLinAlg ModelRot SpecRot FactsRot ModelTransform ModelRobot
  ModelKin SpecKin FactsKin FactsJac ModelUrdf SpecUrdf FactsUrdf.
Import ListNotations.
Open Scope R_scope.

Lemma bsum_add f g b : bsum (fun m r => f m r + g m r) b = bsum f b + bsum g b.
Proof. induction b as [|[m r] b IH]; simpl; [ring|]. rewrite IH. ring. Qed.
Lemma bsum_mul c f b : bsum (fun m r => c * f m r) b = c * bsum f b.
Proof. induction b as [|[m r] b IH]; simpl; [ring|]. rewrite IH. ring. Qed.
Lemma bsum_ext f g b : (forall m r, f m r = g m r) -> bsum f b = bsum g b.
Proof. intros H. induction b as [|[m r] b IH]; simpl; auto. now rewrite IH, H. Qed.
Lemma bsum_app f a b : bsum f (a ++ b) = bsum f a + bsum f b.
Proof. induction a as [|[m r] a IH]; simpl; [ring|]. rewrite IH. ring. Qed.

(** Total of a function of the point that is a combination of ten moments. *)
Lemma bsum_10 b (s : vec3 -> vec3) c0 c1 c2 c3 c4 c5 c6 c7 c8 c9 :
  bsum (fun m r => m * (c0 + c1 * vx (s r) + c2 * vy (s r) + c3 * vz (s r)
     + c4 * (vy (s r) * vy (s r) + vz (s r) * vz (s r)) + c5 * (vx (s r) * vx (s r) + vz (s r) * vz (s r))
     + c6 * (vx (s r) * vx (s r) + vy (s r) * vy (s r))
     + c7 * (vx (s r) * vy (s r)) + c8 * (vx (s r) * vz (s r)) + c9 * (vy (s r) * vz (s r)))) b =
  c0 * bsum (fun m _ => m) b + c1 * bsum (fun m r => m * vx (s r)) b + c2 * bsum (fun m r => m * vy (s r)) b
  + c3 * bsum (fun m r => m * vz (s r)) b
  + c4 * bsum (fun m r => m * (vy (s r) * vy (s r) + vz (s r) * vz (s r))) b
  + c5 * bsum (fun m r => m * (vx (s r) * vx (s r) + vz (s r) * vz (s r))) b
  + c6 * bsum (fun m r => m * (vx (s r) * vx (s r) + vy (s r) * vy (s r))) b
  - c7 * bsum (fun m r => - (m * (vx (s r) * vy (s r)))) b - c8 * bsum (fun m r => - (m * (vx (s r) * vz (s r)))) b
  - c9 * bsum (fun m r => - (m * (vy (s r) * vz (s r)))) b.
Proof. induction b as [|[m r] b IH]; simpl; [ring|]. rewrite IH. ring. Qed.

Definition com_rot (i : uinertial) : mat3 :=
  match i_origin i with Some o => match o_rpy o with Some a => rpy_to_rot a | None => I3 end | None => I3 end.
Lemma com_rot_SO3 i : is_SO3 (com_rot i).
Proof. unfold com_rot. destruct (i_origin i) as [o|]; [destruct (o_rpy o)|]; auto using SO3_I, rpy_SO3. Qed.
Lemma com_turn_mvec i x : com_turn i x = mvec (com_rot i) x.
Proof. unfold com_turn, com_rot. destruct (i_origin i) as [o|]; [destruct (o_rpy o)|]; rewrite ?mvec_I, ?rpy_mvec; auto. Qed.
Definition tensor (i : uinertial) : mat3 :=
  match i_tensor i with
  | Some t => M3 (ixx t) (ixy t) (ixz t) (ixy t) (iyy t) (iyz t) (ixz t) (iyz t) (izz t)
  | None => mzero end.
Lemma convert_eq i Rm m : i_mass i = Some m -> 1/1000000 < m ->
  convert_inertial (Some i) Rm =
  Some (M6 (madd (mmul (mmul (com_rot i) (tensor i)) (mT (com_rot i)))
                 (msub (mscale (m * dot (com_of i) (com_of i)) I3) (mscale m (outer (com_of i) (com_of i)))))
           (mscale m (hat (com_of i))) (mscale (- m) (hat (com_of i))) (mscale m I3)).
Proof.
  intros E L. unfold convert_inertial. rewrite E. rewrite (proj2 (Rleb_false m (1/1000000))) by lra.
  unfold com_of, or0, com_rot, tensor. destruct (i_origin i) as [[xyz rpy]|]; auto.
Qed.
Lemma quad_block (I0 : mat3) m p w v :
  dot6 (V6 w v) (m6vec (M6 (madd I0 (msub (mscale (m * dot p p) I3) (mscale m (outer p p))))
           (mscale m (hat p)) (mscale (- m) (hat p)) (mscale m I3)) (V6 w v)) =
  dot w (mvec I0 w) + m * norm2 (vadd v (cross w p)).
Proof.
  destruct I0 as [i1 i2 i3 i4 i5 i6 i7 i8 i9], p as [p1 p2 p3], w as [w1 w2 w3], v as [v1 v2 v3]. cbv [dot6 m6vec msub outer mscale madd hat I3 mvec norm2 vadd cross dot hi3 lo3 b00 b01 b10 b11
    vx vy vz m00 m01 m02 m10 m11 m12 m20 m21 m22]. ring.
Qed.
Lemma dot_conj C I0 w : dot w (mvec (mmul (mmul C I0) (mT C)) w) = dot (mvec (mT C) w) (mvec I0 (mvec (mT C) w)).
Proof. destruct C as [c1 c2 c3 c4 c5 c6 c7 c8 c9], I0 as [i1 i2 i3 i4 i5 i6 i7 i8 i9], w as [w1 w2 w3]. cbv [dot mvec mmul mT vx vy vz m00 m01 m02 m10 m11 m12 m20 m21 m22]. ring. Qed.
Lemma norm2_SO3 C v : is_SO3 C -> norm2 (mvec C v) = norm2 v.
Proof.
  intros S3. pose proof (SO3_norm C v S3) as E. unfold norm in E.
  assert (A : 0 <= norm2 (mvec C v)) by (unfold norm2, dot; nra).
  assert (B : 0 <= norm2 v) by (unfold norm2, dot; nra).
  unfold norm2 in *. apply sqrt_inj in E; auto.
Qed.
(** One point, in coordinates of the inertial frame. *)
Lemma point_energy C p w v s : is_SO3 C ->
  norm2 (vadd v (cross w (vadd p (mvec C s)))) =
  let a := mvec (mT C) (vadd v (cross w p)) in let o := mvec (mT C) w in
  norm2 (vadd a (cross o s)).
Proof.
  intros S3. cbv zeta. rewrite <- (norm2_SO3 C (vadd (mvec (mT C) (vadd v (cross w p))) (cross (mvec (mT C) w) s)) S3). f_equal.
  rewrite (mvec_vadd C), (SO3_cross C), !(SO3_vec_T C) by auto. generalize (mvec C s). intros t. la_ring.
Qed.
Lemma energy_describes i b s Rm : describes i b s -> 1/1000000 < bsum (fun m _ => m) b ->
  exists M, convert_inertial (Some i) Rm = Some M /\ energy_matrix M b.
Proof.
  intros (A & Em & X & Y & Z & Et) L. rewrite (convert_eq i Rm _ Em L). eexists. split; [reflexivity|].
  intros w v. rewrite quad_block, dot_conj. unfold energy2.
  assert (S3 := com_rot_SO3 i). set (C := com_rot i) in *. set (p := com_of i) in *.
  set (a := mvec (mT C) (vadd v (cross w p))). set (o := mvec (mT C) w).
  assert (Ea : norm2 (vadd v (cross w p)) = norm2 a) by (unfold a; rewrite norm2_SO3; auto using SO3_T).
  rewrite Ea.
  rewrite (bsum_ext (fun m r => m * norm2 (vadd v (cross w r))) (fun m r => m * norm2 (vadd a (cross o (s r))))).
  2: { intros m r. f_equal. pose proof (point_energy C p w v (s r) S3) as Q. cbv zeta in Q. fold a o in Q. rewrite <- Q.
       specialize (A r). rewrite com_turn_mvec in A. fold C p in A. now rewrite A. }
  unfold tensor. rewrite Et. cbn [ixx ixy ixz iyy iyz izz].
  rewrite (bsum_ext (fun m r => m * norm2 (vadd a (cross o (s r)))) (fun m r => m * (norm2 a
     + (2 * (vy a * vz o - vz a * vy o)) * vx (s r)
     + (2 * (vz a * vx o - vx a * vz o)) * vy (s r) + (2 * (vx a * vy o - vy a * vx o)) * vz (s r)
     + (vx o * vx o) * (vy (s r) * vy (s r) + vz (s r) * vz (s r)) + (vy o * vy o) * (vx (s r) * vx (s r) + vz (s r) * vz (s r))
     + (vz o * vz o) * (vx (s r) * vx (s r) + vy (s r) * vy (s r))
     + (-2 * vx o * vy o) * (vx (s r) * vy (s r)) + (-2 * vx o * vz o) * (vx (s r) * vz (s r))
     + (-2 * vy o * vz o) * (vy (s r) * vz (s r))))).
  2: { intros m r. f_equal. generalize (s r). intros t. destruct a as [a1 a2 a3], o as [o1 o2 o3], t as [t1 t2 t3]. cbv [norm2 vadd cross dot vx vy vz]. ring. }
  rewrite bsum_10, X, Y, Z. destruct a as [a1 a2 a3], o as [o1 o2 o3]. cbv [norm2 dot mvec vx vy vz m00 m01 m02 m10 m11 m12 m20 m21 m22]. ring.
Qed.

(* ---------- the matrices of a chain ---------- *)
Lemma energy_add M N a b : energy_matrix M a -> energy_matrix N b -> energy_matrix (m6add M N) (a ++ b).
Proof.
  intros A B w v. unfold energy2. rewrite bsum_app. fold (energy2 a w v) (energy2 b w v). rewrite <- A, <- B.
  generalize (V6 w v). clear. intros [h l]. destruct M as [A0 A1 A2 A3], N as [B0 B1 B2 B3].
  unfold dot6, m6vec, m6add. cbn [hi3 lo3 b00 b01 b10 b11].
  assert (E : forall X Y z, mvec (madd X Y) z = vadd (mvec X z) (mvec Y z)) by (intros; la_ring).
  assert (D : forall x y z, dot x (vadd y z) = dot x y + dot x z) by (intros; la_ring).
  rewrite !E, !D. ring.
Qed.
Lemma convert_any i A B : convert_inertial i A = convert_inertial i B.
Proof. reflexivity. Qed.
Fixpoint linked (l : string) (js : list ujoint) (tip : string) : Prop :=
  match js with [] => l = tip | j :: js' => j_parent j = l /\ linked (j_child j) js' tip end.
Lemma linked_snoc js : forall l j, linked l js (j_parent j) -> linked l (js ++ [j]) (j_child j).
Proof. induction js as [|a js IH]; simpl; intros l j H. { subst. auto. } destruct H. auto. Qed.
Lemma path_linked u root tip js : path u root tip js -> linked root js tip.
Proof. induction 1; simpl; auto. now apply linked_snoc. Qed.
Lemma link_mass_get u l b Rm : tidy u -> link_mass u l b ->
  exists i M, get (link_map u) l = Ok (Some i) /\ convert_inertial (Some i) Rm = Some M /\ energy_matrix M b.
Proof.
  intros T (i & s & I & D & L). destruct (energy_describes i b s Rm D L) as [M [E EM]].
  exists i, M. repeat split; auto. apply get_ok, lookup_nodup; auto. apply (tidy_links u T).
Qed.
Definition holds (m : option mat6) (b : body) : Prop :=
  match m with Some M => energy_matrix M b | None => b = [] end.
Lemma holds_append m b M b' : holds m b -> energy_matrix M b' ->
  exists N, append_inertia m (Some M) = Some N /\ energy_matrix N (b ++ b').
Proof.
  destruct m as [M0|]; simpl; intros H E.
  - eexists. split; [reflexivity|]. apply energy_add; auto.
  - subst. simpl. eauto.
Qed.
Definition prepend (b : body) (l : list body) : list body := match l with g :: gs => (b ++ g) :: gs | [] => [] end.
Lemma fold_masses u mass : tidy u -> forall js l tip s s' b, (forall j, In j js -> In j (u_joints u)) ->
  linked l js tip -> (forall k, k = l \/ In k (map j_child js) -> link_mass u k (mass k)) ->
  (forall j, In j js -> j_kind j = Fixed -> same_frame j) ->
  holds (s_m s) b -> fold_out (load_joint u) (map j_name js) s = Ok s' ->
  forall i, get (link_map u) tip = Ok i ->
  exists Ms : list mat6, s_M s' ++ [append_inertia (s_m s') (convert_inertial i (s_R s'))] = s_M s ++ map Some Ms /\
    Forall2 energy_matrix Ms (prepend b (body_masses mass l js)).
Proof.
  intros T. induction js as [|j js IH]; intros l tip s s' b I Lk LM SF Hb E i Ei.
  - simpl in *. injection E as <-. subst tip. destruct (link_mass_get u l (mass l) (s_R s) T (LM l (or_introl eq_refl))) as (i' & M & G & C & EM).
    rewrite Ei in G. injection G as ->. rewrite C. destruct (holds_append _ _ _ _ Hb EM) as [N [-> EN]].
    exists [N]. split; auto.
  - cbn [map fold_out] in E. destruct (load_joint u s (j_name j)) as [s1|] eqn:E1; [|discriminate]. cbn [bind] in E.
    destruct (load_joint_ok u s j s1 T (I j (or_introl eq_refl)) E1) as [Sj [m [Em ->]]].
    simpl in Lk. destruct Lk as [Lp Lk].
    destruct (link_mass_get u l (mass l) (next_R (s_R s) j) T (LM l (or_introl eq_refl))) as (ip & M & G & C & EM).
    destruct (link_mass_get u (j_child j) (mass (j_child j)) I3 T (LM (j_child j) (or_intror (or_introl eq_refl)))) as (ic & Mc & Gc & _ & _).
    unfold inert in Em. rewrite Lp, Gc, G in Em. cbn [bind] in Em. rewrite C in Em.
    destruct (holds_append _ _ _ _ Hb EM) as [N [EN HN]]. rewrite EN in Em. injection Em as <-.
    assert (LM' : forall k, k = j_child j \/ In k (map j_child js) -> link_mass u k (mass k)).
    { intros k Hk. apply LM. right. simpl. destruct Hk; auto. }
    assert (I' : forall j', In j' js -> In j' (u_joints u)) by (intros; apply I; now right).
    assert (SF' : forall j', In j' js -> j_kind j' = Fixed -> same_frame j') by (intros; apply SF; auto; now right).
    unfold after in E. cbn [body_masses]. destruct (moving j) eqn:Mj.
    + match type of E with fold_out _ _ ?st = _ => set (s2 := st) in E end.
      destruct (IH (j_child j) tip s2 s' [] I' Lk LM' SF' eq_refl E i Ei) as (Ms & F1 & F2).
      exists (N :: Ms). unfold s2 in F1. cbn [s_M] in F1. rewrite F1, <- app_assoc. split; auto. simpl. constructor; auto.
      destruct (body_masses mass (j_child j) js); auto.
    + match type of E with fold_out _ _ ?st = _ => set (s2 := st) in E end.
      destruct (IH (j_child j) tip s2 s' (b ++ mass l) I' Lk LM' SF' HN E i Ei) as (Ms & F1 & F2).
      exists Ms. split; auto. assert (K : j_kind j = Fixed) by (unfold moving in Mj; destruct (j_kind j); auto; discriminate).
      rewrite (SF j (or_introl eq_refl) K). destruct (body_masses mass (j_child j) js) as [|g gs]; simpl in *; auto.
      rewrite <- app_assoc in F2. replace (map (fun mr => (fst mr, snd mr)) g) with g; auto.
      clear. induction g as [|[x y] g IH]; simpl; congruence.
Qed.
Lemma all_some_map {A} (l : list A) : all_some (map Some l) = Some l.
Proof. induction l as [|a l IH]; simpl; auto. now rewrite IH. Qed.
Lemma load_chain_masses u root tip js r eff mass : tidy u -> path u root tip js ->
  load_chain u root tip (map j_name js) = Ok (r, eff) ->
  (forall k, k = root \/ In k (map j_child js) -> link_mass u k (mass k)) ->
  (forall j, In j js -> j_kind j = Fixed -> same_frame j) ->
  exists Ms, rM r = Some (map rows6 Ms) /\ Forall2 energy_matrix Ms (body_masses mass root js).
Proof.
  intros T Pj E LM SF. assert (I := path_in _ _ _ _ Pj). assert (Lk := path_linked _ _ _ _ Pj).
  destruct (path_last _ _ _ _ Pj) as [[-> _]|[js' [j [-> [Ec Ij]]]]]; [discriminate|].
  rewrite (load_chain_eq u root tip js' j T I) in E.
  apply bind_ok in E. destruct E as [s [Es E]]. apply bind_ok in E. destruct E as [i [Ei E]].
  apply bind_ok in E. destruct E as [r' [Er E]]. injection E as <- _.
  rewrite Ec in Ei.
  destruct (fold_masses u mass T _ root tip lstart s [] I Lk LM SF eq_refl Es i Ei) as (Ms & F1 & F2).
  exists Ms. destruct (Robot_init_stored _ _ Er) as (_ & _ & _ & _ & _ & _ & _ & C8 & _).
  cbn [aM cargs] in C8. unfold tip_inert in C8. rewrite F1 in C8. simpl in C8. rewrite all_some_map in C8. split; auto.
  destruct (body_masses mass root (js' ++ [j])); auto.
Qed.
Lemma load_chain_M u root tip js r eff : tidy u -> path u root tip js ->
  load_chain u root tip (map j_name js) = Ok (r, eff) ->
  exists s i, fold_out (load_joint u) (map j_name js) lstart = Ok s /\ get (link_map u) tip = Ok i /\
    rM r = match all_some (s_M s ++ [append_inertia (s_m s) (convert_inertial i (s_R s))]) with
           | Some l => Some (map rows6 l) | None => None end.
Proof.
  intros T Pj E. assert (I := path_in _ _ _ _ Pj).
  destruct (path_last _ _ _ _ Pj) as [[-> _]|[js' [j [-> [Ec Ij]]]]]; [discriminate|].
  rewrite (load_chain_eq u root tip js' j T I) in E.
  apply bind_ok in E. destruct E as [s [Es E]]. apply bind_ok in E. destruct E as [i [Ei E]].
  apply bind_ok in E. destruct E as [r' [Er E]]. injection E as <- _. rewrite Ec in Ei.
  exists s, i. split; auto. split; auto. apply Robot_init_stored in Er. apply Er.
Qed.
Lemma rows6_inj a b : map rows6 a = map rows6 b -> a = b.
Proof.
  revert b. induction a as [|x a IH]; intros [|y b] E; try discriminate; auto.
  assert (E1 := f_equal (hd []) E). assert (E2 := f_equal (@tl _) E). cbn [map hd tl] in E1, E2. f_equal; auto.
  destruct x as [[] [] [] []], y as [[] [] [] []]. cbv -[Rplus] in E1.
  inversion E1. reflexivity.
Qed.
