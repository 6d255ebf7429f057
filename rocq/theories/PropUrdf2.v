(** Property C68, continued: what the loader really puts into M. *)
From Coq Require Import Reals ZArith String List Bool Lra Lia.
From Verif Require Import LinAlg RealAux Py FactsReal FactsLinAlg ModelRot SpecRot FactsRot ModelTransform ModelRobot
  ModelKin SpecKin FactsKin FactsJac ModelUrdf SpecUrdf FactsUrdf FactsInertia PropUrdf.
Import ListNotations.
Open Scope R_scope.

(** The link carries no mass that counts: no inertial element, or one without mass or with at most a milligram. *)
Definition massless (u : urdf) (k : string) : Prop :=
  exists i, In (k, i) (u_links u) /\ match i with None => True | Some i => forall m, i_mass i = Some m -> m <= 1/1000000 end.
(** The masses the loader collects along js from the link l: those of a link only if the next link has an
    inertial element, and those behind a fixed joint as if it did not displace them. *)
Fixpoint collected (has : string -> bool) (mass : string -> body) (l : string) (js : list ujoint) : list body :=
  match js with
  | [] => [mass l]
  | j :: js' =>
      let b := if has (j_child j) then mass l else [] in
      if moving j then b :: collected has mass (j_child j) js'
      else match collected has mass (j_child j) js' with g :: gs => (b ++ g) :: gs | [] => [] end
  end.

Definition known (u : urdf) (has : string -> bool) (mass : string -> body) (k : string) : Prop :=
  (has k = true <-> exists i, In (k, Some i) (u_links u)) /\ (link_mass u k (mass k) \/ massless u k /\ mass k = []).
(** a matrix or none, for some matter or none *)
Definition stands_for (m : option mat6) (b : body) : Prop :=
  match m with Some M => energy_matrix M b /\ b <> [] | None => b = [] end.
Lemma massless_convert u k i Rm : tidy u -> massless u k -> get (link_map u) k = Ok i -> convert_inertial i Rm = None.
Proof.
  intros T (i' & I & L) G. assert (G' : get (link_map u) k = Ok i') by (apply get_ok, lookup_nodup; auto; apply (tidy_links u T)).
  rewrite G in G'. injection G' as ->. destruct i' as [i'|]; [|reflexivity]. apply C52_light. exact L.
Qed.
Lemma link_mass_nonempty u k b : link_mass u k b -> b <> [].
Proof. intros (i & s & _ & _ & L) ->. cbn in L. lra. Qed.
Lemma known_convert u has mass k i Rm : tidy u -> known u has mass k -> get (link_map u) k = Ok i ->
  stands_for (convert_inertial i Rm) (mass k).
Proof.
  intros T (_ & [M|[N E]]) G.
  - destruct (link_mass_get u k (mass k) Rm T M) as (i' & X & G' & C & EM). rewrite G in G'. injection G' as ->. rewrite C.
    split; auto. eapply link_mass_nonempty; eauto.
  - rewrite (massless_convert u k i Rm T N G). exact E.
Qed.
Lemma stands_append m b n c : stands_for m b -> stands_for n c -> stands_for (append_inertia m n) (b ++ c).
Proof.
  destruct m as [M|], n as [N|]; cbn [append_inertia stands_for].
  - intros (A & X) (B & Y). split; [apply energy_add; auto|]. destruct b; [congruence|discriminate].
  - intros (A & X) ->. rewrite app_nil_r. auto.
  - intros -> (B & Y). auto.
  - intros -> ->. reflexivity.
Qed.
Lemma known_has u has mass k i : tidy u -> known u has mass k -> get (link_map u) k = Ok i ->
  has k = match i with Some _ => true | None => false end.
Proof.
  intros T (H & _) G. assert (U : forall i', In (k, i') (u_links u) -> i' = i).
  { intros i' I. assert (G' : get (link_map u) k = Ok i') by (apply get_ok, lookup_nodup; auto; apply (tidy_links u T)). congruence. }
  destruct i as [i|].
  - apply H. exists i. apply get_ok in G. apply lookup_in in G. exact G.
  - destruct (has k) eqn:E; auto. destruct (proj1 H eq_refl) as [i I]. apply U in I. discriminate.
Qed.
Lemma fold_collected u has mass : tidy u -> forall js l tip s s' b, (forall j, In j js -> In j (u_joints u)) ->
  linked l js tip -> (forall k, k = l \/ In k (map j_child js) -> known u has mass k) ->
  stands_for (s_m s) b -> fold_out (load_joint u) (map j_name js) s = Ok s' ->
  forall i, get (link_map u) tip = Ok i ->
  exists ms, s_M s' ++ [append_inertia (s_m s') (convert_inertial i (s_R s'))] = s_M s ++ ms /\
    Forall2 stands_for ms (prepend b (collected has mass l js)).
Proof.
  intros T. induction js as [|j js IH]; intros l tip s s' b I Lk K Hb E i Ei.
  - simpl in *. injection E as <-. subst tip. eexists. split; [reflexivity|]. constructor; [|constructor].
    apply stands_append; auto. eapply known_convert; eauto.
  - cbn [map fold_out] in E. destruct (load_joint u s (j_name j)) as [s1|] eqn:E1; [|discriminate]. cbn [bind] in E.
    destruct (load_joint_ok u s j s1 T (I j (or_introl eq_refl)) E1) as [Sj [m [Em ->]]].
    simpl in Lk. destruct Lk as [Lp Lk].
    assert (Kc : known u has mass (j_child j)) by (apply K; right; simpl; auto).
    assert (Hm : stands_for m (b ++ (if has (j_child j) then mass l else []))).
    { unfold inert in Em. destruct (get (link_map u) (j_child j)) as [ci|] eqn:Gc; [|discriminate]. cbn [bind] in Em.
      rewrite (known_has u has mass _ ci T Kc Gc). destruct ci as [ci|].
      - rewrite Lp in Em. destruct (get (link_map u) l) as [pi|] eqn:Gp; [|discriminate]. cbn [bind] in Em. injection Em as <-.
        apply stands_append; auto. eapply known_convert; eauto.
      - injection Em as <-. now rewrite app_nil_r. }
    assert (K' : forall k, k = j_child j \/ In k (map j_child js) -> known u has mass k).
    { intros k Hk. apply K. right. simpl. destruct Hk; auto. }
    assert (I' : forall j', In j' js -> In j' (u_joints u)) by (intros; apply I; now right).
    unfold after in E. cbn [collected]. destruct (moving j) eqn:Mj.
    + match type of E with fold_out _ _ ?st = _ => set (s2 := st) in E end.
      destruct (IH (j_child j) tip s2 s' [] I' Lk K' eq_refl E i Ei) as (ms & F1 & F2).
      exists (m :: ms). unfold s2 in F1. cbn [s_M] in F1. rewrite F1, <- app_assoc. split; auto. cbn [prepend]. constructor; auto.
      destruct (collected has mass (j_child j) js); auto.
    + match type of E with fold_out _ _ ?st = _ => set (s2 := st) in E end.
      destruct (IH (j_child j) tip s2 s' _ I' Lk K' Hm E i Ei) as (ms & F1 & F2).
      exists ms. split; auto. destruct (collected has mass (j_child j) js) as [|g gs]; simpl in *; auto.
      rewrite <- app_assoc in F2. exact F2.
Qed.
Lemma all_some_none {A} (l : list (option A)) : In None l -> all_some l = None.
Proof.
  induction l as [|[a|] l IH]; cbn [In all_some]; intros H; [destruct H| |reflexivity].
  destruct H as [H|H]; [discriminate|]. now rewrite IH.
Qed.
Lemma stands_all ms bs : Forall2 stands_for ms bs -> ~ In [] bs -> exists Ms, ms = map Some Ms /\ Forall2 energy_matrix Ms bs.
Proof.
  induction 1 as [|m b ms bs H F IH]; intros N; [exists []; auto|].
  destruct IH as (Ms & -> & G); [intros X; apply N; now right|].
  destruct m as [M|]; cbn in H; [|exfalso; apply N; left; auto]. exists (M :: Ms). split; auto. constructor; tauto.
Qed.
Lemma stands_none ms bs : Forall2 stands_for ms bs -> In [] bs -> In None ms.
Proof.
  induction 1 as [|m b ms bs H F IH]; intros []; [|right; auto]. subst b. left. destruct m as [M|]; auto. destruct H as [_ H]. congruence.
Qed.

(** C68.  The loaded M exactly, for every chain of links that describe their matter or have none. *)
Theorem C68_loaded : forall u ro to r eff, tidy u -> robot_from_urdf u ro to = Ret (Ok (r, eff)) ->
  exists root tip js, root_of u ro root /\ tip_of u root to tip /\ path u root tip js /\
  forall has mass, (forall k, k = root \/ In k (map j_child js) -> known u has mass k) ->
    (In [] (collected has mass root js) -> rM r = None) /\
    (~ In [] (collected has mass root js) ->
     exists Ms, rM r = Some (map rows6 Ms) /\ Forall2 energy_matrix Ms (collected has mass root js)).
Proof.
  intros u ro to r eff T E. destruct (from_urdf_ok u ro to r eff T E) as (root & tip & js & Ro & To & Pj & L).
  exists root, tip, js. split; auto. split; auto. split; auto. intros has mass K.
  destruct (load_chain_M u root tip js r eff T Pj L) as (s & i & Fs & Gi & EM).
  destruct (fold_collected u has mass T js root tip lstart s [] (path_in _ _ _ _ Pj) (path_linked _ _ _ _ Pj) K eq_refl Fs i Gi) as (ms & F1 & F2).
  rewrite F1 in EM. cbn [lstart s_M app] in EM.
  replace (prepend [] (collected has mass root js)) with (collected has mass root js) in F2 by (destruct (collected has mass root js); reflexivity).
  split; intros N.
  - rewrite (all_some_none ms) in EM; [exact EM|]. eapply stands_none; eauto.
  - destruct (stands_all _ _ F2 N) as (Ms & -> & G). rewrite all_some_map in EM. eauto.
Qed.
(** With a bare tip frame: base - arm - (fixed) - hand - (fixed) - frame.  The hand is not counted, the arm is. *)
Definition jg1 := Ujoint "mount" "arm" "hand" Fixed None None None.
Definition jg2 := Ujoint "grip" "hand" "frame" Fixed None None None.
Definition u_tip := Urdf [("base", Some i_unit); ("arm", Some i_unit); ("hand", Some i_unit); ("frame", None)]%string [jt; jg1; jg2].
Definition has_tip (k : string) : bool := negb (String.eqb k "frame").
Example C68_loaded_ex : exists r eff, robot_from_urdf u_tip (Some "base"%string) (Some "frame"%string) = Ret (Ok (r, eff)) /\
  exists Ms, rM r = Some (map rows6 Ms) /\ Forall2 energy_matrix Ms [pt; pt].
Proof.
  assert (T : tidy u_tip) by (constructor; simpl; nodup).
  assert (A : acyclic u_tip).
  { exists (fun s => if String.eqb s "base" then 0 else if String.eqb s "arm" then 1 else if String.eqb s "hand" then 2 else 3)%nat.
    simpl. intros j H. each; simpl; lia. }
  assert (C : connected u_tip) by (intros j H; unfold declared; simpl in *; each; simpl; tauto).
  assert (Pj : path u_tip "base" "frame" [jt; jg1; jg2]).
  { apply (path_down u_tip "base" jg2 [jt; jg1]); [|simpl; auto|discriminate].
    apply (path_down u_tip "base" jg1 [jt]); [|simpl; auto|discriminate].
    apply (path_down u_tip "base" jt []); [|simpl; auto|discriminate]. constructor. }
  destruct (load_chain_loads u_tip "base" "frame" [jt; jg1; jg2] T C Pj) as (r & eff & L).
  { discriminate. }
  { repeat apply Forall_cons; try apply Forall_nil; unfold supported; simpl; auto. right. split; auto. discriminate. }
  { intros j H M. simpl in H. each; try discriminate. unfold unit3, dot; simpl; ring. }
  exists r, eff.
  assert (E : robot_from_urdf u_tip (Some "base"%string) (Some "frame"%string) = Ret (Ok (r, eff))).
  { rewrite (from_urdf_runs u_tip _ _ "base" "frame" [jt; jg1; jg2] T A); auto; [now rewrite L| |reflexivity].
    split; auto. unfold declared; simpl; auto. }
  split; auto.
  assert (K : forall k, k = "base"%string \/ In k (map j_child [jt; jg1; jg2]) -> known u_tip has_tip m_frame k).
  { assert (U : forall k, In (k, Some i_unit) (u_links u_tip) -> m_frame k = pt -> link_mass u_tip k (m_frame k)).
    { intros k I ->. exists i_unit, (fun r => r). split; auto. split; [exact unit_describes|]. simpl. lra. }
    assert (V : forall k, In (k, Some i_unit) (u_links u_tip) -> m_frame k = pt -> has_tip k = true -> known u_tip has_tip m_frame k).
    { intros k I M H. split; [|left; apply U; auto]. split; auto. intros _. eauto. }
    intros k H. simpl in H. destruct H as [H|[H|[H|[H|[]]]]]; subst k; try (apply V; simpl; auto; fail).
    split.
    - split; [discriminate|]. intros (x & H). simpl in H. destruct H as [H|[H|[H|[H|[]]]]]; discriminate.
    - right. split; [|reflexivity]. exists None. simpl. split; [|exact Logic.I]. do 3 right. now left. }
  destruct (load_chain_M u_tip "base" "frame" _ r eff T Pj L) as (s & i & Fs & Gi & EM).
  destruct (fold_collected u_tip has_tip m_frame T _ "base" "frame" lstart s [] (path_in _ _ _ _ Pj) (path_linked _ _ _ _ Pj) K eq_refl Fs i Gi) as (ms & F1 & F2).
  rewrite F1 in EM. cbn [lstart s_M app] in EM. cbn in F2.
  destruct (stands_all _ _ F2) as (Ms & -> & G).
  { unfold pt. simpl. intros [H|[H|H]]; try discriminate; auto. }
  rewrite all_some_map in EM. eauto.
Qed.
Print Assumptions C68_loaded.
