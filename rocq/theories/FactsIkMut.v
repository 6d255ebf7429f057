(** The in-place rewriting of robot.P by robot6_sphericalwrist_invkin leaves the kinematics alone. *)
From Coq Require Import Reals ZArith List Bool Lia Lra Psatz.
From Verif Require Import LinAlg RealAux Py FactsReal FactsLinAlg ModelRot SpecRot FactsRot
  ModelTransform ModelRobot ModelKin SpecKin FactsKin FactsJac ModelSub SpecSub FactsSub ModelInvkin SpecInvkin FactsInvkin FactsIkGeo FactsRobot6.
Import ListNotations.
Open Scope R_scope.

Lemma vadd_assoc a b c : vadd (vadd a b) c = vadd a (vadd b c). Proof. la_ring. Qed.
Lemma vadd_swap a b c : vadd (vadd a b) c = vadd (vadd a c) b. Proof. la_ring. Qed.
(** A link vector along the axis can be added before or after the joint. *)
Lemma fk_step_slide j h a b t M p : on_axis h a ->
  fk_step j h (vadd b a) t M p = fk_step j h b t M (vadd p (mvec M a)).
Proof.
  intros O. pose proof (on_axis_rot h t a O) as E.
  destruct j; simpl; rewrite ?mvec_mmul; rewrite ?mvec_vadd, ?E; f_equal;
  generalize (mvec M (mvec (rot h t) b)), (mvec M a), (mvec M b), (vscale t (mvec M h)); intros; clear; la_ring.
Qed.
Lemma fk_step_out j h a b t M p : fk_step j h (vadd b a) t M p =
  (fst (fk_step j h b t M p), vadd (snd (fk_step j h b t M p)) (mvec (fst (fk_step j h b t M p)) a)).
Proof.
  destruct j; simpl; rewrite ?mvec_mmul; rewrite ?mvec_vadd, ?mvec_mmul; f_equal;
  rewrite ?vadd_assoc; reflexivity.
Qed.
Lemma fk_step_axis j h pn t M p : mvec (fst (fk_step j h pn t M p)) h = mvec M h.
Proof. destruct j; simpl; rewrite ?mvec_mmul, ?rot_axis; reflexivity. Qed.
Lemma fk_step_fst j h pn pn' t M p p' : fst (fk_step j h pn t M p) = fst (fk_step j h pn' t M p').
Proof. destruct j; reflexivity. Qed.

Definition slid (a b : jtype * vec3 * vec3 * R) : Prop :=
  let '(j, h, p, t) := a in let '(j', h', p', t') := b in
  j = j' /\ h = h' /\ t = t' /\ exists c, p' = vadd p (vscale c h).
Definition jac_same (a b : out (list (jtype * vec3 * vec3 * R) * (mat3 * vec3))) : Prop :=
  match a, b with
  | Ok (l, x), Ok (l', y) => Forall2 slid l l' /\ x = y
  | Err e, Err e' => e = e'
  | _, _ => False
  end.
Lemma slid_refl a : slid a a.
Proof. destruct a as [[[j h] p] t]. simpl. split; [|split; [|split]]; auto. exists 0. la_ring. Qed.
Lemma jac_same_refl a : jac_same a a.
Proof.
  destruct a as [[l x]|]; simpl; auto. split; auto. induction l; constructor; auto using slid_refl.
Qed.
Lemma jac_pre ty H P P' : (forall th M p, jac_same (jac_loop ty H P th M p) (jac_loop ty H P' th M p)) ->
  forall j h pn th M p, jac_same (jac_loop (j :: ty) (h :: H) (pn :: P) th M p) (jac_loop (j :: ty) (h :: H) (pn :: P') th M p).
Proof.
  intros X j h pn th M p. cbn [jac_loop]. destruct th as [|t th]; [reflexivity|].
  destruct (fk_step j h pn t M p) as [M' p']. specialize (X th M' p').
  destruct (jac_loop ty H P th M' p') as [[l x]|], (jac_loop ty H P' th M' p') as [[l' y]|]; simpl in *; auto.
  destruct X as [F ->]. split; auto. constructor; auto. apply slid_refl.
Qed.
(** p4 along h3 moves from after joint 3 to before it *)
Lemma slide_back j2 j3 ty h2 h3 H p3 p4 P th M p : on_axis h3 p4 ->
  jac_same (jac_loop (j2 :: j3 :: ty) (h2 :: h3 :: H) (p3 :: p4 :: P) th M p)
           (jac_loop (j2 :: j3 :: ty) (h2 :: h3 :: H) (vadd p3 p4 :: vzero :: P) th M p).
Proof.
  intros O. cbn [jac_loop]. destruct th as [|t2 th]; [reflexivity|].
  rewrite fk_step_out. destruct (fk_step j2 h2 p3 t2 M p) as [M' p']. cbn [fst snd].
  destruct th as [|t3 th]; [reflexivity|].
  replace (fk_step j3 h3 p4 t3 M' p') with (fk_step j3 h3 (vadd vzero p4) t3 M' p') by (rewrite vadd_0_l; auto).
  rewrite fk_step_slide by auto. pose proof (fk_step_axis j3 h3 vzero t3 M' (vadd p' (mvec M' p4))) as AX.
  destruct (fk_step j3 h3 vzero t3 M' (vadd p' (mvec M' p4))) as [M'' p'']. cbn [fst] in AX.
  destruct (jac_loop ty H P th M'' p'') as [[l x]|]; simpl; auto. split; auto.
  constructor; [apply slid_refl|]. constructor; [|induction l; constructor; auto using slid_refl].
  split; [|split; [|split]]; auto. exists (dot p4 h3).
  rewrite AX, <- mvec_vscale. f_equal. unfold on_axis, perp in O. f_equal. symmetry. apply (eq_sym (vsub_0 _ _ O)).
Qed.
(** p5 along h5 moves from before joint 5 to after it *)
Lemma slide_forward j4 j5 ty h4 h5 H p5 p6 P th M p : on_axis h5 p5 ->
  jac_same (jac_loop (j4 :: j5 :: ty) (h4 :: h5 :: H) (p5 :: p6 :: P) th M p)
           (jac_loop (j4 :: j5 :: ty) (h4 :: h5 :: H) (vzero :: vadd p6 p5 :: P) th M p).
Proof.
  intros O. cbn [jac_loop]. destruct th as [|t4 th]; [reflexivity|].
  replace (fk_step j4 h4 p5 t4 M p) with (fk_step j4 h4 (vadd vzero p5) t4 M p) by (rewrite vadd_0_l; auto).
  rewrite fk_step_out. destruct (fk_step j4 h4 vzero t4 M p) as [M' p']. cbn [fst snd].
  destruct th as [|t5 th]; [reflexivity|]. rewrite fk_step_slide by auto.
  pose proof (fk_step_axis j5 h5 p6 t5 M' (vadd p' (mvec M' p5))) as AX.
  destruct (fk_step j5 h5 p6 t5 M' (vadd p' (mvec M' p5))) as [M'' p'']. cbn [fst] in AX.
  destruct (jac_loop ty H P th M'' p'') as [[l x]|]; simpl; auto. split; auto.
  constructor; [apply slid_refl|]. constructor; [|induction l; constructor; auto using slid_refl].
  split; [|split; [|split]]; auto. exists (- dot p5 h5).
  rewrite AX. unfold on_axis, perp in O. pose proof (vsub_0 _ _ O) as E. rewrite E at 1. rewrite mvec_vscale.
  generalize (mvec M' h5), (dot p5 h5). clear. intros; la_ring.
Qed.

Lemma jac_cols_slid l l' pT : Forall2 slid l l' -> jac_cols l pT = jac_cols l' pT.
Proof.
  assert (HH : forall h p c, mvec (hat h) (vsub pT (vadd p (vscale c h))) = mvec (hat h) (vsub pT p)).
  { intros. rewrite !hat_cross. la_ring. }
  remember (length l) as n. assert (L : (length l <= n)%nat) by lia. clear Heqn. revert l l' L.
  induction n as [|n IH]; intros l l' L F.
  { destruct l; [|simpl in L; lia]. inversion F; subst. reflexivity. }
  destruct F as [|[[[j h] p] t] [[[j' h'] p'] t'] l l' S F]; [reflexivity|].
  destruct S as (<- & <- & <- & c & ->). simpl in L.
  destruct j; simpl.
  1-3: rewrite (IH l l') by (auto; lia); rewrite ?HH; reflexivity.
  destruct F as [|x x' l l' _ F]; [reflexivity|].
  destruct F as [|[[[j2 h2] p2] t2] [[[j2' h2'] p2'] t2'] l l' S F]; [reflexivity|].
  destruct S as (<- & <- & <- & c2 & ->). simpl in L. rewrite (IH l l') by (auto; lia). rewrite HH. reflexivity.
Qed.
Lemma fk_jac ty : forall H P th M p, fk_loop ty H P th M p = let* x := jac_loop ty H P th M p in Ok (snd x).
Proof.
  induction ty as [|j ty IH]; intros H P th M p; simpl; auto.
  destruct H as [|h H]; auto. destruct P as [|pn P]; auto. destruct th as [|t th]; auto.
  destruct (fk_step j h pn t M p) as [M' p']. rewrite IH. destruct (jac_loop ty H P th M' p'); reflexivity.
Qed.

Definition same_kin (r r' : robot) : Prop :=
  (forall theta b, fwdkin r' theta b = fwdkin r theta b) /\ (forall theta b, robotjacobian r' theta b = robotjacobian r theta b).
Lemma same_kin_refl r : same_kin r r. Proof. split; auto. Qed.
Lemma same_kin_trans a b c : same_kin a b -> same_kin b c -> same_kin a c.
Proof. intros [A B] [C D]. split; intros; rewrite ?C, ?D; auto. Qed.
Lemma set_P_same r : set_P r (rP r) = r.
Proof. destruct r; reflexivity. Qed.
Lemma jac_same_kin r p0 P P' : rP r = p0 :: P ->
  (forall th M p, jac_same (jac_loop (rtype r) (rH r) P th M p) (jac_loop (rtype r) (rH r) P' th M p)) ->
  same_kin r (set_P r (p0 :: P')).
Proof.
  intros E X. split; intros theta b.
  - unfold fwdkin, check_limits. simpl. rewrite E. destruct (if b then _ else _); simpl; auto.
    rewrite !fk_jac. specialize (X theta I3 p0).
    destruct (jac_loop (rtype r) (rH r) P theta I3 p0) as [[l x]|], (jac_loop (rtype r) (rH r) P' theta I3 p0) as [[l' y]|]; simpl in *; try tauto.
    destruct X as [_ ->]. reflexivity. congruence.
  - unfold robotjacobian, check_limits. simpl. rewrite E. destruct (if b then _ else _); simpl; auto.
    specialize (X theta I3 p0).
    destruct (jac_loop (rtype r) (rH r) P theta I3 p0) as [[l x]|], (jac_loop (rtype r) (rH r) P' theta I3 p0) as [[l' y]|]; simpl in *; try tauto.
    destruct X as [F ->]. destruct y as [A p]. rewrite (jac_cols_slid l l') by auto. reflexivity. congruence.
Qed.

Lemma correct4_kin r : wf_robot r -> same_kin r (set_P r (fst (correct4 (rH r) (rP r)))).
Proof.
  intros W. pose proof (wf_H r W) as LH. pose proof (wf_P r W) as LP.
  unfold correct4, index. destruct (rP r) as [|p0 [|p1 [|p2 [|p3 [|p4 P]]]]] eqn:EP; try (simpl; rewrite <- EP, set_P_same; apply same_kin_refl).
  cbn [nth_error]. destruct (vzerob p4) eqn:Z; [simpl; rewrite <- EP, set_P_same; apply same_kin_refl|].
  destruct (rtype r) as [|j0 [|j1 [|j2 [|j3 ty]]]] eqn:ET; simpl in LP; try lia.
  destruct (rH r) as [|h0 [|h1 [|h2 [|h3 H]]]] eqn:EH; simpl in LH; try lia. cbn [nth_error].
  destruct (vzerob (vsub p4 (vscale (dot p4 h3) h3))) eqn:O; [|simpl; rewrite <- EP, set_P_same; apply same_kin_refl].
  cbn [fst set_nth firstn skipn app nth]. apply (jac_same_kin r p0 (p1 :: p2 :: p3 :: p4 :: P)); auto.
  apply vzerob_iff in O. rewrite EH, ET. intros th M p. do 2 (apply jac_pre; clear th M p; intros th M p). apply slide_back. exact O.
Qed.
Lemma correct5_kin r : wf_robot r -> same_kin r (set_P r (fst (correct5 (rH r) (rP r)))).
Proof.
  intros W. pose proof (wf_H r W) as LH. pose proof (wf_P r W) as LP.
  unfold correct5, index. destruct (rP r) as [|p0 [|p1 [|p2 [|p3 [|p4 [|p5 P]]]]]] eqn:EP; try (simpl; rewrite <- EP, set_P_same; apply same_kin_refl).
  cbn [nth_error]. destruct (vzerob p5) eqn:Z; [simpl; rewrite <- EP, set_P_same; apply same_kin_refl|].
  destruct (rH r) as [|h0 [|h1 [|h2 [|h3 [|h4 [|h5 H]]]]]] eqn:EH; cbn [nth_error]; try (simpl; rewrite <- EP, set_P_same; apply same_kin_refl).
  destruct (vzerob (vsub p5 (vscale (dot p5 h5) h5))) eqn:O; [|simpl; rewrite <- EP, set_P_same; apply same_kin_refl].
  destruct P as [|p6 P]; cbn [nth_error]; [simpl; rewrite <- EP, set_P_same; apply same_kin_refl|].
  destruct (rtype r) as [|j0 [|j1 [|j2 [|j3 [|j4 [|j5 ty]]]]]] eqn:ET; simpl in LH; try lia.
  cbn [fst set_nth firstn skipn app nth]. apply (jac_same_kin r p0 (p1 :: p2 :: p3 :: p4 :: p5 :: p6 :: P)); auto.
  apply vzerob_iff in O. rewrite EH, ET. intros th M p. do 4 (apply jac_pre; clear th M p; intros th M p). apply slide_forward. exact O.
Qed.
Lemma set_nth_length {A} i (v : A) l : length (set_nth i v l) = length l.
Proof.
  unfold set_nth. rewrite app_length. rewrite <- (firstn_skipn i l) at 3. rewrite app_length. f_equal. destruct (skipn i l); reflexivity.
Qed.
Lemma correct4_length H P : length (fst (correct4 H P)) = length P.
Proof.
  unfold correct4. destruct (index P 4) as [p|]; auto. destruct (vzerob p); auto. destruct (index H 3) as [h|]; auto.
  destruct (vzerob _); auto. cbn [fst]. rewrite !set_nth_length. auto.
Qed.
Lemma correct5_length H P : length (fst (correct5 H P)) = length P.
Proof.
  unfold correct5. destruct (index P 5) as [p|]; auto. destruct (vzerob p); auto. destruct (index H 5) as [h|]; auto.
  destruct (vzerob _); auto. destruct (index P 6); auto. cbn [fst]. rewrite !set_nth_length. auto.
Qed.
Lemma wf_set_P r P : wf_robot r -> length P = length (rP r) -> wf_robot (set_P r P).
Proof. intros W L. destruct W. constructor; simpl; auto. congruence. Qed.
Lemma correct_kin r : wf_robot r -> same_kin r (set_P r (fst (correct_P (rH r) (rP r)))) /\ wf_robot (set_P r (fst (correct_P (rH r) (rP r)))).
Proof.
  intros W. unfold correct_P. pose proof (correct4_kin r W) as K. pose proof (correct4_length (rH r) (rP r)) as L4.
  destruct (correct4 (rH r) (rP r)) as [P' [u|e]]; cbn [fst] in *; [|split; auto using wf_set_P].
  pose proof (wf_set_P r P' W L4) as W'. pose proof (correct5_kin _ W') as K5. simpl in K5. pose proof (correct5_length (rH r) P') as L5.
  split; [eapply same_kin_trans; eauto|]. apply wf_set_P; auto. congruence.
Qed.

(** A second correction changes nothing. *)
Lemma vzerob_vzero : vzerob vzero = true. Proof. apply vzerob_iff; auto. Qed.
Lemma correct4_cases H P :
  (fst (correct4 H P) = P /\ exists e, snd (correct4 H P) = Err e) \/
  (snd (correct4 H P) = Ok tt /\ exists v, index (fst (correct4 H P)) 4 = Ok v /\ vzerob v = true).
Proof.
  unfold correct4, index. destruct P as [|p0 [|p1 [|p2 [|p3 [|p4 P]]]]]; simpl; eauto.
  destruct (vzerob p4) eqn:Z; simpl; eauto 6. destruct H as [|h0 [|h1 [|h2 [|h3 H]]]]; simpl; eauto.
  destruct (vzerob (vsub p4 (vscale (dot p4 h3) h3))) eqn:O; simpl; eauto. right. split; eauto using vzerob_vzero.
Qed.
Lemma correct5_cases H P :
  (fst (correct5 H P) = P /\ exists e, snd (correct5 H P) = Err e) \/
  (snd (correct5 H P) = Ok tt /\ index (fst (correct5 H P)) 4 = index P 4 /\ exists v, index (fst (correct5 H P)) 5 = Ok v /\ vzerob v = true).
Proof.
  unfold correct5, index. destruct P as [|p0 [|p1 [|p2 [|p3 [|p4 [|p5 P]]]]]]; simpl; eauto.
  destruct (vzerob p5) eqn:Z; simpl; eauto 8. destruct H as [|h0 [|h1 [|h2 [|h3 [|h4 [|h5 H]]]]]]; simpl; eauto.
  destruct (vzerob (vsub p5 (vscale (dot p5 h5) h5))) eqn:O; simpl; eauto. destruct P as [|p6 P]; simpl; eauto.
  right. split; eauto 6 using vzerob_vzero.
Qed.
Lemma correct4_zero H P v : index P 4 = Ok v -> vzerob v = true -> correct4 H P = (P, Ok tt).
Proof. intros E Z. unfold correct4. rewrite E, Z. reflexivity. Qed.
Lemma correct5_zero H P v : index P 5 = Ok v -> vzerob v = true -> correct5 H P = (P, Ok tt).
Proof. intros E Z. unfold correct5. rewrite E, Z. reflexivity. Qed.
Lemma correct_P_idem H P : correct_P H (fst (correct_P H P)) = correct_P H P.
Proof.
  assert (F : forall Q, correct_P H Q = match snd (correct4 H Q) with Ok _ => correct5 H (fst (correct4 H Q)) | Err e => (fst (correct4 H Q), Err e) end).
  { intros Q. unfold correct_P. destruct (correct4 H Q) as [Q' [u|e]]; reflexivity. }
  rewrite (F P). destruct (correct4_cases H P) as [[A [e B]]|[A (v & B & Z)]].
  - rewrite B. cbn [fst]. rewrite A, (F P), B, A. reflexivity.
  - rewrite A. set (P' := fst (correct4 H P)) in *.
    destruct (correct5_cases H P') as [[C [e D]]|[C (D & w & E & Zw)]].
    + rewrite C. rewrite (F P'). rewrite (correct4_zero H P' v B Z). reflexivity.
    + set (P'' := fst (correct5 H P')) in *. rewrite (F P''). rewrite (correct4_zero H P'' v) by (congruence || auto). cbn [fst snd].
      rewrite (correct5_zero H P'' w) by auto. rewrite <- C. unfold P''. destruct (correct5 H P'); reflexivity.
Qed.

Section Hist.
Context (argsort : list (flt R) -> list nat).
(** The robot after one call, and after a list of calls *)
Definition after_call (r : robot) (c : transform * option (list R)) : robot :=
  fst (robot6_sphericalwrist_invkin argsort r (fst c) (snd c)).
Lemma after_call_eq r c : after_call r c = set_P r (fst (correct_P (rH r) (rP r))).
Proof. unfold after_call, robot6_sphericalwrist_invkin. destruct (correct_P (rH r) (rP r)); reflexivity. Qed.
Lemma after_calls r cs : wf_robot r -> same_kin r (fold_left after_call cs r) /\ wf_robot (fold_left after_call cs r).
Proof.
  revert r. induction cs as [|c cs IH]; intros r W; simpl. split; auto using same_kin_refl.
  rewrite after_call_eq. destruct (correct_kin r W) as [K W']. destruct (IH _ W') as [K' W'']. split; auto. eapply same_kin_trans; eauto.
Qed.
Lemma after_second r c c' : after_call (after_call r c) c' = after_call r c.
Proof. rewrite !after_call_eq. simpl. rewrite correct_P_idem. reflexivity. Qed.
End Hist.
