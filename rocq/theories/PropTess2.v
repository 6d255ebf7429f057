(** Redundant solutions of a TesseractRobot: C85. *)
From Coq Require Import Reals ZArith String List Bool Lia Lra Permutation.
From Verif Require Import LinAlg RealAux Py FactsReal SpecRot ModelRot ModelTransform ModelRobot ModelKin SpecKin FactsKin PropKin.
From Verif Require Import ModelInvkin SpecInvkin SpecEquiv FactsEquiv PropEquiv.
From Verif Require Import ModelTess SpecTess FactsTess FactsTessIk FactsTessEnv PropTess PropTessIk ModelTess2.
Import ListNotations.
Open Scope R_scope.

(** The library's getRedundantSolutions: theta being inside the limits, it lists the other vectors
    inside the limits that differ from theta by whole turns of the given joints. *)
Definition redundant_contract (get : list R -> list (R * R) -> list nat -> list (list R)) : Prop :=
  forall theta lims idx, List.length lims = List.length theta ->
  (forall i, (i < List.length theta)%nat -> fst (nth i lims (0,0)) <= nth i theta 0 <= snd (nth i lims (0,0))) ->
  NoDup (get theta lims idx) /\
  forall q, In q (get theta lims idx) <->
    q <> theta /\ List.length q = List.length theta /\
    forall i, (i < List.length theta)%nat ->
      fst (nth i lims (0,0)) <= nth i q 0 <= snd (nth i lims (0,0)) /\
      (In i idx -> ang_eq (nth i q 0) (nth i theta 0)) /\ (~ In i idx -> nth i q 0 = nth i theta 0).

Lemma way_row g base js : forall l, way g base l js -> in_row js base l /\ incl js (sg_joints g).
Proof.
  intros l W. induction W as [|j js I W (IH1 & IH2)]; [split; [reflexivity|intros x []]|]. split.
  - eapply in_row_app; [exact IH1|]. split; reflexivity.
  - intros x J. apply in_app_or in J. destruct J as [J|[<-|[]]]; auto.
Qed.
Lemma row_way g root js : forall a b p, way g root a p -> in_row js a b -> incl js (sg_joints g) -> way g root b (p ++ js).
Proof.
  induction js as [|j js IH]; intros a b p W S I; simpl in S.
  - subst b. rewrite app_nil_r. exact W.
  - destruct S as (<- & S). change (j :: js) with ([j] ++ js). rewrite app_assoc. apply IH with (a := tj_child j); auto.
    + constructor; auto. apply I. left. reflexivity.
    + intros x J. apply I. right. exact J.
Qed.
Lemma way_unique g root : NoDup (map tj_child (sg_joints g)) -> ~ In root (map tj_child (sg_joints g)) ->
  forall l p, way g root l p -> forall p', way g root l p' -> p = p'.
Proof.
  intros N Rt l p W. induction W as [|j js Ij W IH].
  - intros p' W'. inversion W' as [|j' js' Ij' W0 E]; subst; auto. exfalso. apply Rt. apply in_map, Ij'.
  - intros p' W'. inversion W' as [E|j' js' Ij' W0 E]; subst.
    + exfalso. apply Rt. apply in_map, Ij.
    + assert (j' = j) by (eapply nodup_map_inj; eauto). subst j'. f_equal. apply IH, W0.
Qed.

(** The moving joints on the way to the tip. *)
Lemma filter_moving aa r name : graphable r ->
  filter moves (get_robot_world_to_base_joint aa r name :: map (prefix_joint (name ++ "_")) (all_joints aa r))
  = map (fun i => prefix_joint (name ++ "_") (jt aa r i)) (seq 0 (List.length (rtype r))).
Proof.
  intros G. cbn [filter moves get_robot_world_to_base_joint tj_kind].
  assert (F : forall l l', (forall j, In j l -> moves j = true) -> (forall j, In j l' -> moves j = false) ->
    filter moves (map (prefix_joint (name ++ "_")) (l ++ l')) = map (prefix_joint (name ++ "_")) l).
  { intros l l' A B. induction l as [|j l IH]; cbn [app map filter].
    - induction l' as [|j l' IH]; cbn [map filter]; auto. change (moves (prefix_joint (name ++ "_") j)) with (moves j).
      rewrite (B j) by (left; reflexivity). apply IH. intros x I. apply B. right. exact I.
    - change (moves (prefix_joint (name ++ "_") j)) with (moves j). rewrite (A j) by (left; reflexivity). f_equal.
      apply IH. intros x I. apply A. right. exact I. }
  unfold all_joints. rewrite F.
  - unfold Jk. rewrite map_map. reflexivity.
  - intros j I. unfold Jk in I. apply in_map_iff in I. destruct I as (i & <- & I). apply in_seq in I.
    pose proof (gr_plain r G) as P. rewrite Forall_forall in P. unfold moves, jt. cbn [tj_kind].
    destruct (P (nth i (rtype r) Rotary)) as [-> | ->]; [apply nth_In; lia| |]; reflexivity.
  - intros j I. cbn [app] in I. destruct I as [<- | I]; [reflexivity|]. apply in_app_or in I. unfold flange_joints, tool_joints in I.
    destruct I as [I | I].
    + destruct (rflange r); cbn [In] in I; [|contradiction]. destruct I as [<- | []]. reflexivity.
    + destruct (rRtool r), (rptool r); cbn [In] in I; try contradiction. destruct I as [<- | []]. reflexivity.
Qed.

Lemma group_way aa r name k js : graphable r -> k_base k = "world"%string -> k_tip k = pre name (tip_of r) ->
  (way (env_graph aa r name) (k_base k) (k_tip k) js <->
   js = get_robot_world_to_base_joint aa r name :: map (prefix_joint (name ++ "_")) (all_joints aa r)).
Proof.
  intros G Eb Et. rewrite Eb, Et.
  assert (W : way (env_graph aa r name) "world" (pre name (tip_of r))
    (get_robot_world_to_base_joint aa r name :: map (prefix_joint (name ++ "_")) (all_joints aa r))).
  { apply (row_way _ _ _ "world" _ []); [constructor| |].
    - split; [reflexivity|]. cbn [get_robot_world_to_base_joint tj_child].
      pose proof (in_row_prefix (name ++ "_") (all_joints aa r) "base_link" (tip_of r) (in_row_all aa r (gr_some r G))) as I.
      rewrite !append_assoc in I. exact I.
    - intros x [<- | I]; unfold env_graph; cbn [sg_joints]; apply in_or_app; [right; left; reflexivity|left; exact I]. }
  destruct (env_unique aa r name) as (N1 & N2).
  split; [|intros ->; exact W]. intros W'. exact (way_unique _ _ N1 N2 _ _ W' _ W).
Qed.

Lemma positions_in {A} (f : A -> bool) (h : nat -> A) n s i :
  In i (map fst (filter (fun p => f (snd p)) (combine (seq s n) (map h (seq s n))))) <-> (s <= i < s + n)%nat /\ f (h i) = true.
Proof.
  revert s. induction n as [|n IH]; intros s; cbn [seq map combine filter].
  - split; [intros []|lia].
  - cbn [snd]. destruct (f (h s)) eqn:E; cbn [map In fst]; rewrite (IH (S s)); split.
    + intros [<- | (? & ?)]; [split; [lia|exact E]|split; [lia|assumption]].
    + intros (L & F). destruct (Nat.eq_dec s i) as [-> | N]; [left; reflexivity|right; split; [lia|exact F]].
    + intros (? & ?). split; [lia|assumption].
    + intros (L & F). destruct (Nat.eq_dec s i) as [-> | N]; [congruence|split; [lia|exact F]].
Qed.

(** The group of the robot: its limits are the robot's, its redundant joints the rotary ones. *)
Lemma group_spec aa r name solver tr kg : wf_robot r -> TesseractRobot_init aa r name solver = Ok tr ->
  (group_of (tr_env tr) (tr_infos tr) name kg <->
   kg_limits kg = map (fun i => (opt_nth (rlower r) i, opt_nth (rupper r) i)) (seq 0 (List.length (rtype r))) /\
   kg_redundant kg = positions (fun ty => match ty with Rotary => true | _ => false end) (rtype r)).
Proof.
  intros W E.
  assert (X : exists info, graphable r /\ tr_env tr = env_graph aa r name /\ tr_infos tr = [KI name "world" (pre name (tip_of r)) info]).
  { unfold TesseractRobot_init in E. apply bind_ok_inv in E as ((((g & ks) & links) & names) & E1 & E).
    apply bind_ok_inv in E as (b & _ & E). apply bind_ok_inv in E as (t & _ & E). injection E as <-.
    apply (env_ok aa r name _ _ _ _ _ _ (wf_H r W) (wf_P r W)) in E1. destruct E1 as (G & _ & info & _ & -> & -> & _).
    exists info. auto. }
  destruct X as (info & G & -> & ->).
  assert (L1 : map Some (map (fun i => (opt_nth (rlower r) i, opt_nth (rupper r) i)) (seq 0 (List.length (rtype r)))) =
    map (fun j => option_map (fun l => (l_lower l, l_upper l)) (tj_limits j))
      (map (fun i => prefix_joint (name ++ "_") (jt aa r i)) (seq 0 (List.length (rtype r))))).
  { rewrite !map_map. apply map_ext. intros i. reflexivity. }
  assert (L2 : positions revolves (map (fun i => prefix_joint (name ++ "_") (jt aa r i)) (seq 0 (List.length (rtype r)))) =
    positions (fun ty => match ty with Rotary => true | _ => false end) (rtype r)).
  { unfold positions. rewrite map_length, seq_length.
    assert (M : forall (ty : list jtype) s (h : nat -> tjoint), (forall i, (i < List.length ty)%nat -> revolves (h (s + i)%nat) = match nth i ty Rotary with Rotary => true | _ => false end) ->
      map fst (filter (fun p => revolves (snd p)) (combine (seq s (List.length ty)) (map h (seq s (List.length ty))))) =
      map fst (filter (fun p => match snd p with Rotary => true | _ => false end) (combine (seq s (List.length ty)) ty))).
    { induction ty as [|t ty IH]; intros s h H; cbn [List.length seq map combine filter]; auto. cbn [snd].
      pose proof (H 0%nat ltac:(simpl; lia)) as H0. rewrite Nat.add_0_r in H0. cbn [nth] in H0. rewrite H0.
      assert (IH' := IH (S s) h). lapply IH'; [intros X; destruct t; cbn [map fst]; rewrite X; reflexivity|].
      intros i L. rewrite Nat.add_succ_comm. exact (H (S i) ltac:(simpl; lia)). }
    apply M. intros i L. cbn [Nat.add]. unfold revolves, prefix_joint, jt. cbn [tj_kind]. destruct (nth i (rtype r) Rotary); reflexivity. }
  split.
  - intros (k & js & [<- | []] & _ & Wy & A & B). apply (group_way aa r name (KI name "world" (pre name (tip_of r)) info) js G eq_refl eq_refl) in Wy. subst js.
    rewrite (filter_moving aa r name G) in A, B. split; [|congruence].
    rewrite <- L1 in A. revert A. generalize (kg_limits kg). clear. generalize (map (fun i => (opt_nth (rlower r) i, opt_nth (rupper r) i)) (seq 0 (List.length (rtype r)))).
    intros l l'. revert l. induction l' as [|a l' IH]; intros [|b l] A; cbn [map] in A; try discriminate; auto. injection A as -> A. f_equal. auto.
  - intros (A & B). eexists _, _. split; [left; reflexivity|]. split; [reflexivity|].
    split; [apply (group_way aa r name (KI name "world" (pre name (tip_of r)) info) _ G eq_refl eq_refl); reflexivity|]. rewrite (filter_moving aa r name G), A, L1, L2. auto.
Qed.

Lemma Forall2_nth_iff {A B} (P : A -> B -> Prop) l l' d d' : Forall2 P l l' <->
  List.length l = List.length l' /\ forall i, (i < List.length l)%nat -> P (nth i l d) (nth i l' d').
Proof.
  split.
  - induction 1 as [|a b l l' H F (L & IH)]; [split; auto; cbn; lia|]. split; [cbn; congruence|].
    intros [|i] Li; cbn [nth]; auto. apply IH. simpl in Li. lia.
  - revert l'. induction l as [|a l IH]; intros [|b l'] (L & H); try discriminate; constructor.
    + apply (H 0%nat). simpl. lia.
    + apply IH. split; [simpl in L; lia|]. intros i Li. apply (H (S i)). simpl. lia.
Qed.
Lemma positions_spec (ty : list jtype) f i : In i (positions f ty) <-> (i < List.length ty)%nat /\ f (nth i ty Mobile2) = true.
Proof.
  unfold positions. assert (E : ty = map (fun i => nth i ty Mobile2) (seq 0 (List.length ty))).
  { symmetry. clear. induction ty as [|t ty IH]; auto. cbn [List.length seq map nth]. f_equal.
    rewrite <- seq_shift, map_map. exact IH. }
  rewrite E at 2. rewrite positions_in. split; intros (A & B); split; auto; lia.
Qed.

(** C85.  The redundant solutions are exactly the alternatives inside the limits, and the same
    as equivalent_configurations finds. *)
Theorem C85_redundant : forall aa r name solver tr get group argsort lo up theta, wf_robot r ->
  TesseractRobot_init aa r name solver = Ok tr -> group_of (tr_env tr) (tr_infos tr) name (group name) -> redundant_contract get ->
  rlower r = Some lo -> rupper r = Some up -> List.length theta = List.length (rtype r) -> within_limits r theta ->
  let sols := tess_redundant_solutions get group name theta in
  NoDup sols /\ (forall q, In q sols <-> alternative r theta q) /\
  exists sols', equivalent_configurations argsort r [theta] None = Ok sols' /\ Permutation sols sols'.
Proof.
  intros aa r name solver tr get group argsort lo up theta W E KG C El Eu L WI sols.
  apply (group_spec aa r name solver tr _ W E) in KG. destruct KG as (A & B).
  pose proof (wf_lower r W lo El) as Ll. pose proof (wf_upper r W up Eu) as Lu.
  assert (NL : forall i, (i < List.length theta)%nat -> nth i (kg_limits (group name)) (0,0) = (nth i lo 0, nth i up 0)).
  { intros i Li. rewrite A. rewrite El, Eu. cbn [opt_nth].
    rewrite (nth_indep _ (0,0) ((fun i => (nth i lo 0, nth i up 0)) 0%nat)) by (rewrite map_length, seq_length; lia).
    rewrite (map_nth (fun i => (nth i lo 0, nth i up 0))), seq_nth by lia. reflexivity. }
  assert (IN : forall q, List.length q = List.length theta ->
    ((forall i, (i < List.length theta)%nat -> fst (nth i (kg_limits (group name)) (0,0)) <= nth i q 0 <= snd (nth i (kg_limits (group name)) (0,0))) <-> within_limits r q)).
  { intros q Lq. unfold within_limits. rewrite El, Eu, (Forall2_nth_iff Rle lo q 0 0), (Forall2_nth_iff Rle q up 0 0). split.
    - intros H. split; (split; [congruence|]); intros i Li; specialize (H i ltac:(lia)); rewrite NL in H by lia; cbn [fst snd] in H; tauto.
    - intros ((_ & H1) & (_ & H2)) i Li. rewrite NL by lia. cbn [fst snd]. split; [apply H1|apply H2]; lia. }
  destruct (C theta (kg_limits (group name)) (kg_redundant (group name))) as (N & H).
  { rewrite A, map_length, seq_length. congruence. }
  { apply IN; auto. }
  assert (HS : forall q, In q sols <-> alternative r theta q).
  { intros q. unfold sols, tess_redundant_solutions, redundant_solutions. rewrite H. unfold alternative. rewrite whole_turns_nth. split.
    - intros (NE & Lq & Hq). split; [exact NE|]. split; [|apply IN; [exact Lq|intros i Li; apply (Hq i Li)]].
      split; [exact L|]. split; [congruence|]. intros i Li. destruct (Hq i ltac:(lia)) as (_ & Q1 & Q2). rewrite B, positions_spec in Q1, Q2.
      destruct (match nth i (rtype r) Mobile2 with Rotary => true | _ => false end); [apply Q1; auto|apply Q2; intros (_ & ?); discriminate].
    - intros (NE & (_ & Lq & Hq) & WQ). split; [exact NE|]. split; [congruence|]. intros i Li.
      split; [exact (proj2 (IN q ltac:(congruence)) WQ i Li)|]. specialize (Hq i ltac:(lia)). rewrite B, positions_spec.
      destruct (match nth i (rtype r) Mobile2 with Rotary => true | _ => false end).
      + split; auto. intros X. exfalso. apply X. split; [lia|reflexivity].
      + split; auto. intros (_ & ?). discriminate. }
  split; [exact N|]. split; [exact HS|].
  destruct (C44_one argsort r lo up theta W El Eu L WI) as (sols' & E' & N' & H'). exists sols'. split; [exact E'|].
  apply NoDup_Permutation; [exact N|exact N'|]. intros q. rewrite HS, H'. reflexivity.
Qed.

(** C85.  The environment determines the group. *)
Theorem C85_group : forall aa r name solver tr, wf_robot r -> TesseractRobot_init aa r name solver = Ok tr ->
  exists kg, group_of (tr_env tr) (tr_infos tr) name kg /\ forall kg', group_of (tr_env tr) (tr_infos tr) name kg' -> kg' = kg.
Proof.
  intros aa r name solver tr W E. eexists (KG _ _). split.
  - apply (group_spec aa r name solver tr _ W E). split; reflexivity.
  - intros [l i] H. apply (group_spec aa r name solver tr _ W E) in H. cbn [kg_limits kg_redundant] in H. destruct H as (-> & ->). reflexivity.
Qed.

(** C85.  It has no group of another name. *)
Theorem C85_other_names : forall aa r name solver tr other kg, wf_robot r -> TesseractRobot_init aa r name solver = Ok tr ->
  group_of (tr_env tr) (tr_infos tr) other kg -> other = name.
Proof.
  intros aa r name solver tr other kg W E (k & js & I & N & _). unfold TesseractRobot_init in E. apply bind_ok_inv in E as ((((g & ks) & links) & names) & E1 & E).
  apply bind_ok_inv in E as (b & _ & E). apply bind_ok_inv in E as (t & _ & E). injection E as <-.
  apply (env_ok aa r name _ _ _ _ _ _ (wf_H r W) (wf_P r W)) in E1. destruct E1 as (_ & _ & info & _ & _ & -> & _).
  cbn [tr_infos In] in I. destruct I as [<- | []]. symmetry. exact N.
Qed.

(** A function that meets the contract. *)
Definition lims_robot (lims : list (R * R)) (idx : list nat) : robot :=
  let n := List.length lims in
  Rb (repeat ez n) (repeat vzero (S n)) (map (fun i => if in_dec Nat.eq_dec i idx then Rotary else Prismatic) (seq 0 n))
     (Some (map fst lims)) (Some (map snd lims)) None None None None None None None None None None.
Definition get_demo (theta : list R) (lims : list (R * R)) (idx : list nat) : list (list R) :=
  match equiv1 (lims_robot lims idx) theta with Ok l => l | Err _ => [] end.
Lemma get_demo_contract : redundant_contract get_demo.
Proof.
  intros theta lims idx L B. set (r := lims_robot lims idx).
  assert (Ln : List.length (rtype r) = List.length lims) by (cbn [r lims_robot rtype]; rewrite map_length, seq_length; reflexivity).
  assert (W : wf_robot r).
  { split; rewrite ?Ln; cbn [r lims_robot rH rP rlower rupper]; rewrite ?repeat_length; auto.
    - apply Forall_forall. intros x I. apply repeat_spec in I. subst x. exact unit_ez.
    - intros l [= <-]. apply map_length.
    - intros l [= <-]. apply map_length. }
  assert (N1 : forall i, nth i (map fst lims) 0 = fst (nth i lims (0,0))) by (intros i; exact (map_nth fst lims (0,0) i)).
  assert (N2 : forall i, nth i (map snd lims) 0 = snd (nth i lims (0,0))) by (intros i; exact (map_nth snd lims (0,0) i)).
  assert (IN : forall q, List.length q = List.length theta ->
    ((forall i, (i < List.length theta)%nat -> fst (nth i lims (0,0)) <= nth i q 0 <= snd (nth i lims (0,0))) <-> within_limits r q)).
  { intros q Lq. unfold within_limits. cbn [r lims_robot rlower rupper].
    rewrite (Forall2_nth_iff Rle _ q 0 0), (Forall2_nth_iff Rle q _ 0 0), !map_length. split.
    - intros H. split; (split; [congruence|]); intros i Li; specialize (H i ltac:(lia)); rewrite ?N1, ?N2; tauto.
    - intros ((_ & H1) & (_ & H2)) i Li. rewrite <- N1, <- N2. split; [apply H1|apply H2]; lia. }
  destruct (equiv1_spec r _ _ theta W eq_refl eq_refl) as (sols & E & N & H); [congruence|apply IN; auto|].
  unfold get_demo. fold r. rewrite E. split; [exact N|]. intros q. rewrite H. unfold alternative. rewrite whole_turns_nth.
  assert (TY : forall i, (i < List.length theta)%nat -> nth i (rtype r) Mobile2 = if in_dec Nat.eq_dec i idx then Rotary else Prismatic).
  { intros i Li. cbn [r lims_robot rtype].
    rewrite (nth_indep _ Mobile2 ((fun i => if in_dec Nat.eq_dec i idx then Rotary else Prismatic) 0%nat)) by (rewrite map_length, seq_length; lia).
    rewrite (map_nth (fun i => if in_dec Nat.eq_dec i idx then Rotary else Prismatic)), seq_nth by lia. reflexivity. }
  split.
  - intros (NE & (L1 & L2 & Hq) & WQ). split; [exact NE|]. assert (Lq : List.length q = List.length theta) by congruence.
    split; [exact Lq|]. intros i Li. split; [exact (proj2 (IN q Lq) WQ i Li)|].
    specialize (Hq i ltac:(lia)). rewrite TY in Hq by exact Li. destruct (in_dec Nat.eq_dec i idx); tauto.
  - intros (NE & Lq & Hq). split; [exact NE|]. split; [|apply IN; [exact Lq|intros i Li; apply (Hq i Li)]].
    split; [congruence|]. split; [congruence|]. intros i Li. specialize (Hq i ltac:(lia)). rewrite TY by lia.
    destruct (in_dec Nat.eq_dec i idx); tauto.
Qed.

(** A robot whose first joint can make three half turns each way. *)
Definition demo2 : robot :=
  Rb [ez; ex] [V3 0 0 1; V3 1 0 0; V3 0 2 0] [Rotary; Prismatic] (Some [-3 * PI; 0]) (Some [3 * PI; 1]) (Some [1; 1]) (Some [2; 2])
     None None None (Some ["a"; "b"]%string) None None None None.
Lemma demo2_wf : wf_robot demo2.
Proof.
  split; try reflexivity.
  - repeat constructor; [exact unit_ez|exact unit_ex].
  - intros l [= <-]. reflexivity.
  - intros l [= <-]. reflexivity.
Qed.
Example C85_example : exists tr group, TesseractRobot_init (fun A => A) demo2 "arm" "KDLInvKinChainLMA" = Ok tr /\
  group_of (tr_env tr) (tr_infos tr) "arm" (group "arm"%string) /\ redundant_contract get_demo /\ within_limits demo2 [1; 1/2] /\
  In [1 - 2 * PI; 1/2] (tess_redundant_solutions get_demo group "arm" [1; 1/2]).
Proof.
  pose proof PI_pos as PP. assert (P3 : 3 < PI) by (pose proof PI2_3_2; lra).
  assert (G : exists e, robot_to_tesseract_env (fun A => A) demo2 "arm" true None None = Ok e).
  { apply (C61_environment_iff _ demo2 "arm" demo2_wf). split.
    - split; [simpl; lia|repeat constructor; (left; reflexivity) || (right; reflexivity)| |reflexivity|].
      + do 4 eexists. repeat split; simpl; lia.
      + cbn [moving_joints demo2 rnames fixed_joints rflange rRtool rptool app].
        repeat (constructor; [cbn [In]; intuition discriminate|]); constructor.
    - cbn [moving_joints demo2 rnames fixed_joints rflange rRtool rptool app In]. intros j H.
      repeat (destruct H as [<-|H]; [discriminate|]). contradiction. }
  destruct G as ((((g & ks) & links) & names) & E).
  assert (I : exists tr, TesseractRobot_init (fun A => A) demo2 "arm" "KDLInvKinChainLMA" = Ok tr).
  { unfold TesseractRobot_init.
    assert (E' : robot_to_tesseract_env (fun A => A) demo2 "arm" true (Some "KDLInvKinChainLMA"%string) None = Ok (g, ks, links, names)) by exact E.
    rewrite E'. cbn [bind]. destruct (C61_environment _ demo2 "arm" None None g ks links names demo2_wf E) as (-> & _).
    eexists. reflexivity. }
  destruct I as (tr & I). exists tr. destruct (C85_group _ demo2 "arm" _ tr demo2_wf I) as (kg & GK & _). exists (fun _ => kg).
  assert (WL : within_limits demo2 [1; 1/2]) by (split; repeat apply Forall2_cons; try apply Forall2_nil; lra).
  split; [exact I|]. split; [exact GK|]. split; [exact get_demo_contract|]. split; [exact WL|].
  destruct (C85_redundant _ demo2 "arm" _ tr get_demo (fun _ => kg) (fun _ => []) _ _ [1; 1/2] demo2_wf I GK get_demo_contract eq_refl eq_refl eq_refl WL) as (_ & H & _).
  apply H. split; [intros X; injection X; lra|]. split.
  - constructor; [exists (-1)%Z; lra|]. constructor; [discriminate|]. constructor.
  - split; repeat apply Forall2_cons; try apply Forall2_nil; lra.
Qed.

Print Assumptions C85_redundant.
Print Assumptions C85_group.
Print Assumptions C85_other_names.
