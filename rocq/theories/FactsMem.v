(** Facts about arrays in memory. *)
From Coq Require Import Reals List String Arith Lia Bool.
From Verif Require Import LinAlg RealAux Py ModelRot ModelTransform ModelRobot ModelKin SpecKin ModelInvkin SpecInvkin FactsIkMut ModelMem SpecMem.
Import ListNotations.
Open Scope R_scope.

Definition fresh (m : mem) (l : list nat) : Prop := Forall (fun a => (next m <= a)%nat) l.
Lemma cell_write m a x b : cell (write m a x) b = if Nat.eqb b a then x else cell m b.
Proof. reflexivity. Qed.
Lemma cell_writes ws : forall m b, (forall w, In w ws -> fst w <> b) -> cell (writes m ws) b = cell m b.
Proof.
  induction ws as [|w ws IH]; intros m b N; [reflexivity|]. cbn [writes fold_left]. fold (writes (write m (fst w) (snd w)) ws).
  rewrite IH by (intros; apply N; right; auto). rewrite cell_write. destruct (Nat.eqb_spec b (fst w)); auto. destruct (N w (or_introl eq_refl)); auto.
Qed.
Lemma kept_refl m : kept m m. Proof. split; auto. Qed.
Lemma kept_trans a b c : kept a b -> kept b c -> kept a c.
Proof. intros [L E] [L' E']. split; [lia|]. intros x X. rewrite E' by lia. auto. Qed.
Lemma kept_live m m' l : kept m m' -> live m l -> live m' l.
Proof. intros [L _] F. eapply Forall_impl; [|exact F]. cbn. intros; lia. Qed.
Lemma kept_fresh m m' l : kept m m' -> fresh m' l -> fresh m l.
Proof. intros [L _] F. eapply Forall_impl; [|exact F]. cbn. intros; lia. Qed.
Lemma same_v m m' v : (forall a, In a (addr_v v) -> cell m' a = cell m a) -> readv m' v = readv m v.
Proof. intros E. unfold readv. rewrite !E; cbn; auto. Qed.
Lemma same_m m m' A : (forall a, In a (addr_m A) -> cell m' a = cell m a) -> readm m' A = readm m A.
Proof. intros E. unfold readm. f_equal; apply same_v; intros; apply E; unfold addr_m; rewrite !in_app_iff; auto. Qed.
Lemma same_T m m' T : (forall a, In a (addr_T T) -> cell m' a = cell m a) -> readT m' T = readT m T.
Proof. intros E. unfold readT. f_equal; [apply same_m | apply same_v]; intros; apply E; unfold addr_T; rewrite in_app_iff; auto. Qed.
Lemma same_vs m m' l : (forall a, In a (flat_map addr_v l) -> cell m' a = cell m a) -> map (readv m') l = map (readv m) l.
Proof. intros E. apply map_ext_in. intros v I. apply same_v. intros a Ia. apply E. apply in_flat_map. eauto. Qed.
Lemma same_r m m' r : (forall a, In a (addr_r r) -> cell m' a = cell m a) -> read_robot m' r = read_robot m r.
Proof.
  intros E. unfold addr_r in E. unfold read_robot.
  rewrite (same_vs m m' (oH r)), (same_vs m m' (oP r)) by (intros; apply E; rewrite !in_app_iff; auto).
  f_equal.
  - destruct (oRtool r); cbn [addr_opt option_map] in *; auto. f_equal. apply same_m. intros; apply E. do 2 (apply in_or_app; right). apply in_or_app. left. auto.
  - destruct (optool r); cbn [addr_opt option_map] in *; auto. f_equal. apply same_v. intros; apply E. do 3 (apply in_or_app; right). apply in_or_app. left. auto.
  - destruct (oflange r); cbn [addr_opt option_map] in *; auto. f_equal. apply same_T. intros; apply E. do 4 (apply in_or_app; right). apply in_or_app. left. auto.
  - destruct (obase r); cbn [addr_opt option_map] in *; auto. f_equal. apply same_T. intros; apply E. do 5 (apply in_or_app; right). auto.
Qed.
Lemma live_in m l a : live m l -> In a l -> (a < next m)%nat.
Proof. intros F. unfold live in F. rewrite Forall_forall in F. apply F. Qed.
Lemma kept_v m m' v : kept m m' -> live m (addr_v v) -> readv m' v = readv m v.
Proof. intros [_ K] L. apply same_v. intros. apply K. eapply live_in; eauto. Qed.
Lemma kept_m m m' v : kept m m' -> live m (addr_m v) -> readm m' v = readm m v.
Proof. intros [_ K] L. apply same_m. intros. apply K. eapply live_in; eauto. Qed.
Lemma kept_T m m' v : kept m m' -> live m (addr_T v) -> readT m' v = readT m v.
Proof. intros [_ K] L. apply same_T. intros. apply K. eapply live_in; eauto. Qed.
Lemma kept_r m m' v : kept m m' -> live m (addr_r v) -> read_robot m' v = read_robot m v.
Proof. intros [_ K] L. apply same_r. intros. apply K. eapply live_in; eauto. Qed.
Lemma live_app m a b : live m (a ++ b) <-> live m a /\ live m b.
Proof. apply Forall_app. Qed.
Lemma fresh_app m a b : fresh m (a ++ b) <-> fresh m a /\ fresh m b.
Proof. apply Forall_app. Qed.

Lemma new_v_ok m x : let '(m', v) := new_v m x in
  kept m m' /\ readv m' v = x /\ fresh m (addr_v v) /\ live m' (addr_v v).
Proof.
  unfold new_v. split; [|split; [|split]].
  - split; [cbn; lia|]. intros a L. unfold writev. rewrite !cell_write. cbn [ax ay az]. rewrite !(proj2 (Nat.eqb_neq _ _)) by lia. reflexivity.
  - unfold readv, writev. rewrite !cell_write. cbn [ax ay az]. destruct x as [x y z]. f_equal.
    + rewrite (proj2 (Nat.eqb_neq (next m) (next m + 2))), (proj2 (Nat.eqb_neq (next m) (next m + 1))) by lia. rewrite Nat.eqb_refl. reflexivity.
    + destruct (Nat.eqb_spec (next m + 1) (next m + 2)); [lia|]. rewrite Nat.eqb_refl. reflexivity.
    + rewrite Nat.eqb_refl. reflexivity.
  - repeat (apply Forall_cons; [cbn; lia|]). apply Forall_nil.
  - repeat (apply Forall_cons; [cbn; lia|]). apply Forall_nil.
Qed.
Lemma new_m_ok m A : let '(m', v) := new_m m A in
  kept m m' /\ readm m' v = A /\ fresh m (addr_m v) /\ live m' (addr_m v).
Proof.
  unfold new_m. pose proof (new_v_ok m (col0 A)) as X. destruct (new_v m (col0 A)) as [m1 a]. destruct X as (K1 & R1 & F1 & L1).
  pose proof (new_v_ok m1 (col1 A)) as X. destruct (new_v m1 (col1 A)) as [m2 b]. destruct X as (K2 & R2 & F2 & L2).
  pose proof (new_v_ok m2 (col2 A)) as X. destruct (new_v m2 (col2 A)) as [m3 c]. destruct X as (K3 & R3 & F3 & L3).
  pose proof (kept_trans _ _ _ K2 K3) as K23. pose proof (kept_trans _ _ _ K1 K2) as K12. split; [exact (kept_trans _ _ _ K1 K23)|]. split; [|split].
  - unfold readm. cbn [mc0 mc1 mc2]. rewrite R3, (kept_v _ _ _ K3 L2), R2, (kept_v _ _ _ K23 L1), R1. destruct A; reflexivity.
  - unfold addr_m. cbn [mc0 mc1 mc2]. rewrite !fresh_app. eauto using kept_fresh.
  - unfold addr_m. cbn [mc0 mc1 mc2]. rewrite !live_app. eauto using kept_live.
Qed.
Lemma m_Transform_ok m A p pa ch : live m (addr_m A) -> live m (addr_v p) -> let '(m', T) := m_Transform m A p pa ch in
  kept m m' /\ readT m' T = Tf (readm m A) (readv m p) pa ch /\ fresh m (addr_m (oR T)) /\ live m' (addr_m (oR T)) /\ op T = p.
Proof.
  intros LA LP. unfold m_Transform. pose proof (new_m_ok m (readm m A)) as X. destruct (new_m m (readm m A)) as [m1 A']. destruct X as (K & E & F & L).
  split; [exact K|]. split; [|split; [exact F | split; [exact L | reflexivity]]]. unfold readT. cbn [oR op o_parent o_child]. rewrite E, (kept_v _ _ _ K LP). reflexivity.
Qed.

(** [T] was made by a call that started in [m] and ended in [m']. *)
Definition made (m m' : mem) (T : tobj) (v : transform) : Prop :=
  kept m m' /\ readT m' T = v /\ fresh m (addr_T T) /\ live m' (addr_T T).
Lemma made_independent m m' T v : made m m' T v -> independent m m' T v.
Proof.
  intros (K & E & F & L). split; [exact E|]. split; [exact K|]. split; [exact L|]. unfold fresh in F. rewrite Forall_forall in F. split.
  - intros ws W. rewrite Forall_forall in W. rewrite <- E. apply same_T. intros a I. apply cell_writes. intros w Iw <-. specialize (W w Iw). specialize (F _ I). lia.
  - intros ws a O LA. unfold only in O. rewrite Forall_forall in O. rewrite cell_writes; [apply (proj2 K a LA)|]. intros w Iw <-. specialize (F _ (O w Iw)). lia.
Qed.
Lemma made_grow m0 m m' T v : kept m0 m -> made m m' T v -> made m0 m' T v.
Proof. intros K (K1 & E & F & L). split; [eapply kept_trans; eauto|]. eauto using kept_fresh. Qed.
Lemma live_T m T : live m (addr_T T) -> live m (addr_m (oR T)) /\ live m (addr_v (op T)).
Proof. apply live_app. Qed.
Lemma m_mul_ok m a b : live m (addr_T a) -> live m (addr_T b) -> let '(m', T) := m_mul m a b in made m m' T (tmul (readT m a) (readT m b)).
Proof.
  intros LA LB. destruct (live_T _ _ LA) as [La Lp]. destruct (live_T _ _ LB) as [Lb Lq]. unfold m_mul.
  set (X1 := mmul _ _). pose proof (new_m_ok m X1) as X. destruct (new_m m X1) as [m1 A]. destruct X as (K1 & E1 & F1 & L1).
  set (X2 := vadd _ _). pose proof (new_v_ok m1 X2) as X. destruct (new_v m1 X2) as [m2 p]. destruct X as (K2 & E2 & F2 & L2).
  pose proof (m_Transform_ok m2 A p (o_parent a) (o_child b) (kept_live _ _ _ K2 L1) L2) as X. destruct (m_Transform m2 A p (o_parent a) (o_child b)) as [m3 T].
  destruct X as (K3 & E3 & F3 & L3 & OP). split; [eauto using kept_trans|]. split; [|split].
  - rewrite E3, E2, (kept_m _ _ _ K2 L1), E1. unfold X1, X2. rewrite !(kept_v _ _ _ K1), (kept_m _ _ _ K1) by assumption. reflexivity.
  - unfold addr_T. rewrite OP. apply fresh_app. split; [|eauto using kept_fresh]. apply (kept_fresh m m2); [eauto using kept_trans | exact F3].
  - unfold addr_T. rewrite OP. apply live_app. eauto using kept_live.
Qed.
Lemma addr_transposed A a : In a (addr_m (transposed A)) -> In a (addr_m A).
Proof. unfold addr_m, addr_v, transposed. cbn. tauto. Qed.
Lemma read_transposed m A : readm m (transposed A) = mT (readm m A).
Proof. reflexivity. Qed.
Lemma m_inv_ok m a : live m (addr_T a) -> let '(m', T) := m_inv m a in made m m' T (tinv (readT m a)).
Proof.
  intros LA. destruct (live_T _ _ LA) as [La Lp]. unfold m_inv.
  assert (Lt : live m (addr_m (transposed (oR a)))) by (apply Forall_forall; intros x I; apply (live_in m _ x La), addr_transposed, I).
  set (X2 := vneg _). pose proof (new_v_ok m X2) as X. destruct (new_v m X2) as [m1 p]. destruct X as (K2 & E2 & F2 & L2).
  pose proof (m_Transform_ok m1 (transposed (oR a)) p (o_child a) (o_parent a) (kept_live _ _ _ K2 Lt) L2) as X. destruct (m_Transform m1 _ p _ _) as [m3 T].
  destruct X as (K3 & E3 & F3 & L3 & OP). split; [eauto using kept_trans|]. split; [|split].
  - rewrite E3, E2, (kept_m _ _ _ K2 Lt), read_transposed. reflexivity.
  - unfold addr_T. rewrite OP. apply fresh_app. eauto using kept_fresh.
  - unfold addr_T. rewrite OP. apply live_app. eauto using kept_live.
Qed.
Lemma m_identity_ok m : let '(m', T) := m_identity m in made m m' T identity_transform.
Proof.
  unfold m_identity. pose proof (new_m_ok m I3) as X. destruct (new_m m I3) as [m1 A]. destruct X as (K1 & E1 & F1 & L1).
  pose proof (new_v_ok m1 vzero) as X. destruct (new_v m1 vzero) as [m2 p]. destruct X as (K2 & E2 & F2 & L2).
  pose proof (m_Transform_ok m2 A p None None (kept_live _ _ _ K2 L1) L2) as X. destruct (m_Transform m2 A p None None) as [m3 T].
  destruct X as (K3 & E3 & F3 & L3 & OP). split; [eauto using kept_trans|]. split; [|split].
  - rewrite E3, E2, (kept_m _ _ _ K2 L1), E1. reflexivity.
  - unfold addr_T. rewrite OP. apply fresh_app. split; [|eauto using kept_fresh]. apply (kept_fresh m m2); [eauto using kept_trans | exact F3].
  - unfold addr_T. rewrite OP. apply live_app. eauto using kept_live.
Qed.
Lemma live_r m r : live m (addr_r r) -> live m (flat_map addr_v (oH r)) /\ live m (flat_map addr_v (oP r)) /\
  live m (addr_opt addr_m (oRtool r)) /\ live m (addr_opt addr_v (optool r)) /\ live m (addr_opt addr_T (oflange r)) /\ live m (addr_opt addr_T (obase r)).
Proof. unfold addr_r. rewrite !live_app. tauto. Qed.
(** A step that gives the same object back or makes a new one. *)
Definition made_or (m m' : mem) (T T' : tobj) (v : transform) : Prop := (m' = m /\ T' = T /\ readT m T = v) \/ made m m' T' v.
Lemma m_apply_ok m r T : live m (addr_r r) -> live m (addr_T T) -> let '(m', T') := m_apply_aux m r T in
  made_or m m' T T' (apply_aux (read_robot m r) (readT m T)).
Proof.
  intros LR LT. destruct (live_r _ _ LR) as (_ & _ & LA & LP & LF & LB). unfold m_apply_aux, apply_aux.
  set (v1 := match rflange (read_robot m r) with Some F => _ | None => _ end).
  assert (S1 : let '(m', T') := match oflange r with Some F => m_mul m T F | None => (m, T) end in made_or m m' T T' v1).
  { unfold v1. cbn [read_robot rflange]. destruct (oflange r) as [F|]; cbn [option_map addr_opt] in *; [|left; auto].
    pose proof (m_mul_ok m T F LT LF) as X. destruct (m_mul m T F). right. exact X. }
  destruct (match oflange r with Some F => m_mul m T F | None => (m, T) end) as [m1 T1].
  assert (K1 : kept m m1 /\ live m1 (addr_T T1) /\ readT m1 T1 = v1) by (destruct S1 as [(-> & -> & E) | (K & E & _ & L)]; auto using kept_refl).
  destruct K1 as (K1 & L1 & E1). set (v2 := match tool_transform (read_robot m r) with Some F => _ | None => _ end).
  assert (S2 : let '(m', T') := match oRtool r, optool r with
                  | Some A, Some p => let (m', W) := m_Transform m1 A p None None in m_mul m' T1 W
                  | _, _ => (m1, T1) end in made_or m m' T T' v2).
  { unfold v2, tool_transform. cbn [read_robot rRtool rptool]. destruct (oRtool r) as [A|]; cbn [option_map addr_opt] in *; [|exact S1]. destruct (optool r) as [p|]; cbn [option_map addr_opt] in *; [|exact S1].
    pose proof (m_Transform_ok m1 A p None None (kept_live _ _ _ K1 LA) (kept_live _ _ _ K1 LP)) as X. destruct (m_Transform m1 A p None None) as [m' W]. destruct X as (K2 & E2 & F2 & L2 & OP).
    assert (LW : live m' (addr_T W)) by (unfold addr_T; rewrite OP; apply live_app; eauto using kept_live).
    pose proof (m_mul_ok m' T1 W (kept_live _ _ _ K2 L1) LW) as X. destruct (m_mul m' T1 W) as [m'' T2]. right.
    apply (made_grow m m'); [eauto using kept_trans|]. rewrite E2, (kept_T _ _ _ K2 L1), E1, (kept_m _ _ _ K1 LA), (kept_v _ _ _ K1 LP) in X. exact X. }
  destruct (match oRtool r, optool r with Some A, Some p => _ | _, _ => (m1, T1) end) as [m2 T2].
  assert (K2 : kept m m2 /\ live m2 (addr_T T2) /\ readT m2 T2 = v2) by (destruct S2 as [(-> & -> & E) | (K & E & _ & L)]; auto using kept_refl).
  destruct K2 as (K2 & L2 & E2). cbn [read_robot rbase]. destruct (obase r) as [B|]; cbn [option_map addr_opt] in *; [|exact S2].
  pose proof (m_mul_ok m2 B T2 (kept_live _ _ _ K2 LB) L2) as X. destruct (m_mul m2 B T2) as [m3 T3]. right. apply (made_grow m m2 m3 T3 _ K2). rewrite (kept_T _ _ _ K2 LB), E2 in X. exact X.
Qed.
Lemma m_unapply_ok m r T : live m (addr_r r) -> live m (addr_T T) -> let '(m', T') := m_unapply_aux m r T in
  made_or m m' T T' (unapply_aux (read_robot m r) (readT m T)).
Proof.
  intros LR LT. destruct (live_r _ _ LR) as (_ & _ & LA & LP & LF & LB). unfold m_unapply_aux, unapply_aux.
  set (v1 := match tool_transform (read_robot m r) with Some F => _ | None => _ end).
  assert (S1 : let '(m', T') := match oRtool r, optool r with
                  | Some A, Some p => let (m', W) := m_Transform m A p None None in let (m'', W') := m_inv m' W in m_mul m'' T W'
                  | _, _ => (m, T) end in made_or m m' T T' v1).
  { unfold v1, tool_transform. cbn [read_robot rRtool rptool]. destruct (oRtool r) as [A|]; cbn [option_map addr_opt] in *; [|left; auto]. destruct (optool r) as [p|]; cbn [option_map addr_opt] in *; [|left; auto].
    pose proof (m_Transform_ok m A p None None LA LP) as X. destruct (m_Transform m A p None None) as [m' W]. destruct X as (K2 & E2 & F2 & L2 & OP).
    assert (LW : live m' (addr_T W)) by (unfold addr_T; rewrite OP; apply live_app; eauto using kept_live).
    pose proof (m_inv_ok m' W LW) as X. destruct (m_inv m' W) as [m'' W']. destruct X as (K3 & E3 & _ & L3).
    pose proof (kept_trans _ _ _ K2 K3) as K23. pose proof (m_mul_ok m'' T W' (kept_live _ _ _ K23 LT) L3) as X. destruct (m_mul m'' T W') as [m3 T2]. right.
    apply (made_grow m m'' _ _ _ K23). rewrite E3, E2, (kept_T _ _ _ K23 LT) in X. exact X. }
  destruct (match oRtool r, optool r with Some A, Some p => _ | _, _ => (m, T) end) as [m1 T1].
  assert (K1 : kept m m1 /\ live m1 (addr_T T1) /\ readT m1 T1 = v1) by (destruct S1 as [(-> & -> & E) | (K & E & _ & L)]; auto using kept_refl).
  destruct K1 as (K1 & L1 & E1). set (v2 := match rflange (read_robot m r) with Some F => _ | None => _ end).
  assert (S2 : let '(m', T') := match oflange r with Some F => let (m', F') := m_inv m1 F in m_mul m' T1 F' | None => (m1, T1) end in made_or m m' T T' v2).
  { unfold v2. cbn [read_robot rflange]. destruct (oflange r) as [F|]; cbn [option_map addr_opt] in *; [|exact S1].
    pose proof (m_inv_ok m1 F (kept_live _ _ _ K1 LF)) as X. destruct (m_inv m1 F) as [m' F']. destruct X as (K2 & E2 & _ & L2).
    pose proof (m_mul_ok m' T1 F' (kept_live _ _ _ K2 L1) L2) as X. destruct (m_mul m' T1 F') as [m'' T2]. right.
    apply (made_grow m m'); [eauto using kept_trans|]. rewrite E2, (kept_T _ _ _ K2 L1), E1, (kept_T _ _ _ K1 LF) in X. exact X. }
  destruct (match oflange r with Some F => _ | None => (m1, T1) end) as [m2 T2].
  assert (K2 : kept m m2 /\ live m2 (addr_T T2) /\ readT m2 T2 = v2) by (destruct S2 as [(-> & -> & E) | (K & E & _ & L)]; auto using kept_refl).
  destruct K2 as (K2 & L2 & E2). cbn [read_robot rbase]. destruct (obase r) as [B|]; cbn [option_map addr_opt] in *; [|exact S2].
  pose proof (m_inv_ok m2 B (kept_live _ _ _ K2 LB)) as X. destruct (m_inv m2 B) as [m' B']. destruct X as (K3 & E3 & _ & L3).
  pose proof (m_mul_ok m' B' T2 L3 (kept_live _ _ _ K3 L2)) as X. destruct (m_mul m' B' T2) as [m3 T3]. right. apply (made_grow m m'); [eauto using kept_trans|]. rewrite E3, (kept_T _ _ _ K3 L2), (kept_T _ _ _ K2 LB), E2 in X. exact X.
Qed.
Lemma m_fwdkin_ok m r theta ig : live m (addr_r r) ->
  match m_fwdkin m r theta ig with
  | (m', Ok T) => exists v, fwdkin (read_robot m r) theta ig = Ok v /\ made m m' T v
  | (m', Err e) => m' = m /\ fwdkin (read_robot m r) theta ig = Err e
  end.
Proof.
  intros LR. unfold m_fwdkin, fwdkin. set (v := read_robot m r). destruct (check_limits v theta ig) as [u|e]; cbn [bind]; [|auto].
  destruct (rP v) as [|p0 P]; [auto|]. destruct (fk_loop (rtype v) (rH v) P theta I3 p0) as [[A p]|e]; cbn [bind fst snd]; [|auto].
  pose proof (new_m_ok m A) as X. destruct (new_m m A) as [m1 A']. destruct X as (K1 & E1 & F1 & L1).
  pose proof (new_v_ok m1 p) as X. destruct (new_v m1 p) as [m2 p']. destruct X as (K2 & E2 & F2 & L2).
  pose proof (m_Transform_ok m2 A' p' None None (kept_live _ _ _ K2 L1) L2) as X. destruct (m_Transform m2 A' p' None None) as [m3 T].
  destruct X as (K3 & E3 & F3 & L3 & OP). rewrite E2, (kept_m _ _ _ K2 L1), E1 in E3.
  pose proof (kept_trans _ _ _ K1 K2) as K12. pose proof (kept_trans _ _ _ K12 K3) as K13.
  assert (MT : made m m3 T (Tf A p None None)).
  { split; [exact K13|]. split; [exact E3|]. unfold addr_T. rewrite OP. split; [apply fresh_app | apply live_app]; split; eauto using kept_live, kept_fresh. }
  pose proof (m_apply_ok m3 r T (kept_live _ _ _ K13 LR) (proj2 (proj2 (proj2 MT)))) as X. destruct (m_apply_aux m3 r T) as [m4 T'].
  rewrite (kept_r _ _ _ K13 LR), E3 in X. fold v in X. eexists. split; [reflexivity|]. destruct X as [(-> & -> & E) | X].
  - destruct MT as (M1 & M2 & M3 & M4). split; [exact M1|]. split; [|auto]. rewrite <- E. auto.
  - exact (made_grow _ _ _ _ _ K13 X).
Qed.

(** In-place changes. *)
Lemma cell_writev m v x a : ~ In a (addr_v v) -> cell (writev m v x) a = cell m a.
Proof. intros N. cbn in N. unfold writev. rewrite !cell_write, !(proj2 (Nat.eqb_neq _ _)) by (intros ->; tauto). reflexivity. Qed.
Lemma read_writev m v x : NoDup (addr_v v) -> readv (writev m v x) v = x.
Proof.
  intros N. unfold addr_v in N. inversion N as [|? ? N1 N2]; subst. inversion N2 as [|? ? N3 _]; subst. cbn in N1, N3.
  unfold readv, writev. rewrite !cell_write, !Nat.eqb_refl. rewrite !(proj2 (Nat.eqb_neq _ _)) by (intros E; rewrite E in *; tauto). destruct x; reflexivity.
Qed.
Lemma NoDup_app_parts {A} (a b : list A) : NoDup (a ++ b) -> NoDup a /\ NoDup b /\ forall x, In x a -> ~ In x b.
Proof.
  induction a as [|y a IH]; cbn; intros N; [repeat split; auto; constructor|]. inversion N as [|? ? N1 N2]; subst. destruct (IH N2) as (Na & Nb & D). rewrite in_app_iff in N1.
  split; [constructor; tauto|]. split; [exact Nb|]. intros x [<- | I]; [tauto | auto].
Qed.
Lemma read_column P : forall i p m x, nth_error P i = Some p -> NoDup (flat_map addr_v P) ->
  map (readv (writev m p x)) P = set_nth i x (map (readv m) P).
Proof.
  induction P as [|q P IH]; intros [|i] p m x E N; try discriminate; cbn [nth_error flat_map map] in *; destruct (NoDup_app_parts _ _ N) as (Nq & NP & D).
  - injection E as ->. unfold set_nth. cbn [firstn skipn app]. rewrite (read_writev m p x Nq). f_equal. apply same_vs. intros a I. apply cell_writev. intros I'. exact (D _ I' I).
  - unfold set_nth. cbn [firstn skipn app]. fold (set_nth i x (map (readv m) P)). rewrite <- (IH i p m x E NP). f_equal. apply same_v. intros a I. apply cell_writev. intros I'. apply (D a I). apply in_flat_map. exists p. eauto using nth_error_In.
Qed.
Lemma index_map {A B} (f : A -> B) l i : index (map f l) i = let* x := index l i in Ok (f x).
Proof. unfold index. revert i. induction l; intros [|i]; cbn; auto. Qed.
Lemma index_some {A} (l : list A) i x : index l i = Ok x -> nth_error l i = Some x.
Proof. unfold index. destruct (nth_error l i); congruence. Qed.
Definition in_place (m m' : mem) (P : list vref) : Prop := next m' = next m /\ forall a, ~ In a (flat_map addr_v P) -> cell m' a = cell m a.
Lemma in_place_refl m P : in_place m m P. Proof. split; auto. Qed.
Lemma in_place_write2 m P i j p q x y : nth_error P i = Some p -> nth_error P j = Some q -> in_place m (writev (writev m p x) q y) P.
Proof.
  intros E F. split; [reflexivity|]. intros a N. rewrite !cell_writev; auto; intros I; apply N, in_flat_map; eauto using nth_error_In.
Qed.
Lemma m_correct4_ok m H P : NoDup (flat_map addr_v P) -> let '(m', o) := m_correct4 m H P in
  correct4 (map (readv m) H) (map (readv m) P) = (map (readv m') P, o) /\ in_place m m' P.
Proof.
  intros N. unfold m_correct4, correct4. rewrite !index_map. destruct (index P 4) as [p4|] eqn:E4; cbn [bind]; [|auto using in_place_refl].
  destruct (vzerob (readv m p4)) eqn:Z; [auto using in_place_refl|]. destruct (index H 3) as [h3|] eqn:H3; cbn [bind]; [|auto using in_place_refl].
  destruct (vzerob (vsub _ _)) eqn:O; [|auto using in_place_refl]. apply index_some in E4.
  destruct (nth_error P 3) as [p3|] eqn:E3; [|apply nth_error_None in E3; assert (4 < List.length P)%nat by (apply nth_error_Some; congruence); lia].
  unfold index. rewrite E3. split; [|apply (in_place_write2 m P 3 4); assumption].
  rewrite (read_column P 4 p4 _ _ E4 N), (read_column P 3 p3 _ _ E3 N). do 4 f_equal.
  rewrite (nth_indep _ vzero (readv m p3)) by (rewrite map_length; apply nth_error_Some; congruence). rewrite map_nth. f_equal. apply nth_error_nth. exact E3.
Qed.
Lemma m_correct5_ok m H P : NoDup (flat_map addr_v P) -> let '(m', o) := m_correct5 m H P in
  correct5 (map (readv m) H) (map (readv m) P) = (map (readv m') P, o) /\ in_place m m' P.
Proof.
  intros N. unfold m_correct5, correct5. rewrite !index_map. destruct (index P 5) as [p4|] eqn:E4; cbn [bind]; [|auto using in_place_refl].
  destruct (vzerob (readv m p4)) eqn:Z; [auto using in_place_refl|]. destruct (index H 5) as [h3|] eqn:H3; cbn [bind]; [|auto using in_place_refl].
  destruct (vzerob (vsub _ _)) eqn:O; [|auto using in_place_refl]. destruct (index P 6) as [p6|] eqn:E6; cbn [bind]; [|auto using in_place_refl]. apply index_some in E4. apply index_some in E6.
  split; [|apply (in_place_write2 m P 6 5); assumption].
  rewrite (read_column P 5 p4 _ _ E4 N), (read_column P 6 p6 _ _ E6 N). reflexivity.
Qed.
Lemma in_place_other m m' P l : in_place m m' P -> apart (flat_map addr_v P) l -> forall a, In a l -> cell m' a = cell m a.
Proof. intros [_ E] A a I. apply E. intros I'. exact (A a I' I). Qed.
Lemma m_robot6_ok argsort m r pose last : live m (addr_r r) -> live m (addr_T pose) -> NoDup (flat_map addr_v (oP r)) ->
  apart (flat_map addr_v (oP r)) (flat_map addr_v (oH r)) -> apart (flat_map addr_v (oP r)) (addr_T pose) ->
  let '(m', o) := m_robot6 argsort m r pose last in
  o = snd (robot6_sphericalwrist_invkin argsort (read_robot m r) (readT m pose) last) /\
  map (readv m') (oP r) = rP (fst (robot6_sphericalwrist_invkin argsort (read_robot m r) (readT m pose) last)) /\
  (next m <= next m')%nat /\ forall a, (a < next m)%nat -> ~ In a (flat_map addr_v (oP r)) -> cell m' a = cell m a.
Proof.
  intros LR LT N AH AT. pose proof (m_unapply_ok m r pose LR LT) as X. unfold m_robot6. destruct (m_unapply_aux m r pose) as [m1 pose2].
  destruct (live_r _ _ LR) as (LH & LP & _).
  assert (K1 : kept m m1 /\ apart (flat_map addr_v (oP r)) (addr_T pose2) /\ readT m1 pose2 = unapply_aux (read_robot m r) (readT m pose)).
  { destruct X as [(-> & -> & E) | (K & E & F & L)]; [auto using kept_refl|]. split; [exact K|]. split; [|exact E]. intros a I I'. unfold fresh in F. rewrite Forall_forall in F. specialize (F _ I'). pose proof (live_in _ _ _ LP I). lia. }
  clear X. destruct K1 as (K1 & AT2 & E1). set (v := read_robot m r) in *. unfold robot6_sphericalwrist_invkin, correct_P.
  assert (EH : map (readv m1) (oH r) = rH v) by (unfold v; cbn [read_robot rH]; apply same_vs; intros a I; apply (proj2 K1); exact (live_in m _ a LH I)).
  assert (EP : map (readv m1) (oP r) = rP v) by (unfold v; cbn [read_robot rP]; apply same_vs; intros a I; apply (proj2 K1); exact (live_in m _ a LP I)).
  pose proof (m_correct4_ok m1 (oH r) (oP r) N) as C4. destruct (m_correct4 m1 (oH r) (oP r)) as [m2 o2]. destruct C4 as [C4 I4]. rewrite EH, EP in C4. rewrite C4.
  assert (FR : forall m', in_place m1 m' (oP r) -> (next m <= next m')%nat /\ forall a, (a < next m)%nat -> ~ In a (flat_map addr_v (oP r)) -> cell m' a = cell m a).
  { intros m' [NX E]. split; [rewrite NX; apply (proj1 K1)|]. intros a La Na. rewrite (E a Na). apply (proj2 K1 a La). }
  destruct o2 as [u|e]; [|split; [reflexivity|]; split; [reflexivity | apply FR; exact I4]].
  assert (EH2 : map (readv m2) (oH r) = rH v) by (rewrite <- EH; apply same_vs; apply (in_place_other _ _ _ _ I4 AH)).
  pose proof (m_correct5_ok m2 (oH r) (oP r) N) as C5. destruct (m_correct5 m2 (oH r) (oP r)) as [m3 o3]. destruct C5 as [C5 I5]. rewrite EH2 in C5. rewrite C5.
  assert (I35 : in_place m1 m3 (oP r)). { destruct I4 as [X Y], I5 as [X' Y']. split; [congruence|]. intros a Na. rewrite Y', Y by assumption. reflexivity. }
  destruct o3 as [u'|e]; [|split; [reflexivity|]; split; [reflexivity | apply FR; exact I35]].
  split; [|split; [reflexivity | apply FR; exact I35]]. cbn [bind snd fst].
  assert (ET : readT m3 pose2 = unapply_aux v (readT m pose)) by (rewrite <- E1; apply same_T; apply (in_place_other _ _ _ _ I35 AT2)). rewrite ET.
  assert (EH3 : map (readv m3) (oH r) = rH v) by (rewrite <- EH; apply same_vs; apply (in_place_other _ _ _ _ I35 AH)).
  unfold robot6_solve, normalize_joints. cbn [read_robot rH rP rlower rupper]. rewrite EH3. reflexivity.
Qed.
