(** Facts about the URDF loader. *)
From Coq Require Import Reals ZArith String List Bool Lra Lia Classical FunctionalExtensionality.
From Verif Require Import LinAlg RealAux Py FactsReal FactsLinAlg ModelRot SpecRot FactsRot ModelTransform ModelRobot
  ModelKin SpecKin FactsKin FactsJac ModelUrdf SpecUrdf.
Import ListNotations.
Open Scope R_scope.

(* ---------- dictionaries ---------- *)
Lemma lookup_in {A} k (l : list (string * A)) v : lookup k l = Some v -> In (k, v) l.
Proof.
  induction l as [|[k' v'] l IH]; simpl; [discriminate|]. destruct (lookup k l) as [w|].
  - intros [= <-]. right. auto.
  - destruct (String.eqb_spec k k') as [->|]; [|discriminate]. intros [= <-]. now left.
Qed.
Lemma lookup_none {A} k (l : list (string * A)) : lookup k l = None <-> ~ In k (map fst l).
Proof.
  induction l as [|[k' v'] l IH]; simpl; [tauto|]. destruct (lookup k l) as [w|].
  - split; [discriminate|]. intros H. exfalso. assert (~ In k (map fst l)) by tauto. apply IH in H0. discriminate.
  - destruct (String.eqb_spec k k') as [->|N]; split; intros H; try discriminate; try tauto.
    intros [E|E]; [congruence|]. now apply IH.
Qed.
Lemma lookup_nodup {A} k (l : list (string * A)) v : NoDup (map fst l) -> In (k, v) l -> lookup k l = Some v.
Proof.
  intros N I. destruct (lookup k l) as [w|] eqn:E.
  - apply lookup_in in E. f_equal. induction l as [|[k' v'] l IH]; [destruct I|]. simpl in N. inversion N; subst.
    destruct I as [I|I], E as [E|E].
    + congruence.
    + exfalso. injection I as -> ->. apply H1. now apply (in_map fst) in E.
    + exfalso. injection E as -> ->. apply H1. now apply (in_map fst) in I.
    + auto.
  - apply lookup_none in E. exfalso. apply E. now apply (in_map fst) in I.
Qed.
Lemma keys_in l : forall seen k, In k (keys seen l) <-> In k l /\ ~ In k seen.
Proof.
  induction l as [|a l IH]; intros seen k; simpl; [tauto|].
  destruct (existsb (String.eqb a) seen) eqn:E.
  - apply existsb_exists in E. destruct E as [b [B E]]. apply String.eqb_eq in E. subst b. rewrite IH.
    split; [tauto|]. intros [[->|H] N]; tauto.
  - assert (Na : ~ In a seen).
    { intros H. rewrite <- not_true_iff_false, existsb_exists in E. apply E. exists a. split; auto. apply String.eqb_refl. }
    simpl. rewrite IH. simpl. destruct (String.eqb_spec a k) as [->|N]; [tauto|]. split; [|intros [[->|H] N']; [congruence|]].
    + intros [->|[H N']]; [congruence|]. split; [tauto|]. intros H'. apply N'. now right.
    + right. split; auto. intros [->|H']; auto.
Qed.
Lemma keys_nodup l : forall seen, NoDup (keys seen l).
Proof.
  induction l as [|a l IH]; intros seen; simpl; [constructor|].
  destruct (existsb (String.eqb a) seen); auto. constructor; auto.
  rewrite keys_in. simpl. tauto.
Qed.
Lemma keys_declared u l : In l (keys [] (map fst (link_map u))) <-> declared u l.
Proof. rewrite keys_in. simpl. unfold declared, link_map. tauto. Qed.
Lemma get_ok {A} (l : list (string * A)) k v : get l k = Ok v <-> lookup k l = Some v.
Proof. unfold get. destruct (lookup k l); split; congruence. Qed.
Lemma get_declared u l : declared u l -> exists i, get (link_map u) l = Ok i.
Proof.
  intros D. unfold get. destruct (lookup l (link_map u)) as [i|] eqn:E; [eauto|].
  apply lookup_none in E. contradiction.
Qed.
Lemma joint_lookup u j : tidy u -> In j (u_joints u) -> lookup (j_name j) (joint_map u) = Some j.
Proof.
  intros T I. apply lookup_nodup.
  - unfold joint_map. rewrite map_map. simpl. apply (tidy_joints u T).
  - unfold joint_map. now apply (in_map (fun j => (j_name j, j))).
Qed.
Lemma parent_lookup u j : tidy u -> In j (u_joints u) -> lookup (j_child j) (parent_map u) = Some (j_name j, j_parent j).
Proof.
  intros T I. apply lookup_nodup.
  - unfold parent_map. rewrite map_map. simpl. apply (tidy_children u T).
  - unfold parent_map. now apply (in_map (fun j => (j_child j, (j_name j, j_parent j)))).
Qed.
Lemma parent_in u l n p : lookup l (parent_map u) = Some (n, p) ->
  exists j, In j (u_joints u) /\ j_child j = l /\ j_name j = n /\ j_parent j = p.
Proof.
  intros E. apply lookup_in in E. unfold parent_map in E. apply in_map_iff in E. destruct E as [j [E I]].
  injection E as <- <- <-. eauto.
Qed.
Lemma parent_none u l : lookup l (parent_map u) = None <-> forall j, In j (u_joints u) -> j_child j <> l.
Proof.
  rewrite lookup_none. unfold parent_map. rewrite map_map. simpl. rewrite in_map_iff. split.
  - intros N j I E. apply N. eauto.
  - intros N [j [E I]]. exact (N j I E).
Qed.
Lemma in_child_map_spec u l : in_child_map u l = false <-> forall j, In j (u_joints u) -> j_parent j <> l.
Proof.
  unfold in_child_map. rewrite <- not_true_iff_false, existsb_exists. split.
  - intros N j I E. apply N. exists j. split; auto. rewrite E. apply String.eqb_refl.
  - intros N [j [I E]]. apply String.eqb_eq in E. exact (N j I (eq_sym E)).
Qed.

(* ---------- walking up ---------- *)
Fixpoint up (u : urdf) (k : nat) (l : string) : option string :=
  match k with
  | O => Some l
  | S k' => match lookup l (parent_map u) with Some (_, p) => up u k' p | None => None end
  end.
Lemma up_add u a : forall b l, up u (a + b) l = match up u a l with Some l' => up u b l' | None => None end.
Proof.
  induction a as [|a IH]; intros b l; simpl; auto. destruct (lookup l (parent_map u)) as [[n p]|]; auto.
Qed.
Lemma climb_hang u root f : forall l acc, climb u root f l acc = Hang <->
  forall k, (k < f)%nat -> exists l', up u k l = Some l' /\ l' <> root /\ lookup l' (parent_map u) <> None.
Proof.
  induction f as [|f IH]; intros l acc; simpl.
  - split; auto. intros _ k H. lia.
  - destruct (String.eqb_spec l root) as [->|N].
    + split; [discriminate|]. intros H. destruct (H 0%nat ltac:(lia)) as [l' [E [N _]]]. simpl in E. congruence.
    + destruct (lookup l (parent_map u)) as [[n p]|] eqn:E.
      * rewrite IH. split; intros H k Hk.
        -- destruct k as [|k]; simpl.
           ++ exists l. rewrite E. repeat split; auto. discriminate.
           ++ rewrite E. apply H. lia.
        -- destruct (H (S k) ltac:(lia)) as [l' A]. simpl in A. rewrite E in A. eauto.
      * split; [discriminate|]. intros H. destruct (H 0%nat ltac:(lia)) as [l' [A [_ B]]]. simpl in A. injection A as <-. congruence.
Qed.
Lemma NoDup_map_seq {A} (f : nat -> A) m : forall s,
  (forall i j, (s <= i < j)%nat -> (j < s + m)%nat -> f i <> f j) -> NoDup (map f (seq s m)).
Proof.
  induction m as [|m IH]; intros s H; simpl; [constructor|]. constructor.
  - rewrite in_map_iff. intros [k [E I]]. apply in_seq in I. apply (H s k); [lia|lia|auto].
  - apply IH. intros i j Hi Hj. apply H; lia.
Qed.
Lemma climb_fuel u root l acc :
  climb u root (S (List.length (u_joints u))) l acc = Hang -> forall f acc', climb u root f l acc' = Hang.
Proof.
  rewrite climb_hang. set (n := List.length (u_joints u)). intros H f acc'.
  assert (R : exists i j, (i < j <= n)%nat /\ up u i l = up u j l).
  { apply NNPP. intros N.
    assert (ND : NoDup (map (fun k => up u k l) (seq 0 (S n)))).
    { apply NoDup_map_seq. intros i j A B E. apply N. exists i, j. split; [lia|auto]. }
    assert (IN : incl (map (fun k => up u k l) (seq 0 (S n))) (map (fun j => Some (j_child j)) (u_joints u))).
    { intros o I. apply in_map_iff in I. destruct I as [k [E I]]. apply in_seq in I.
      destruct (H k ltac:(lia)) as [l' [E' [_ L]]]. destruct (lookup l' (parent_map u)) as [[nm p]|] eqn:E2; [|congruence].
      apply parent_in in E2. destruct E2 as [j [Ij [Ej _]]]. apply in_map_iff. exists j. split; auto. congruence. }
    pose proof (NoDup_incl_length ND IN) as L. rewrite !map_length, seq_length in L. fold n in L. lia. }
  destruct R as [i [j [B E]]]. apply climb_hang. intros k Hk. clear Hk.
  induction k as [k IH] using (well_founded_induction lt_wf).
  destruct (le_lt_dec k n) as [Kn|Kn].
  - apply H. lia.
  - destruct (IH (i + (k - j))%nat ltac:(lia)) as [l' A]. exists l'.
    replace k with (j + (k - j))%nat at 1 by lia. rewrite up_add in A |- *. rewrite <- E. exact A.
Qed.
Lemma climb_more u root f : forall l acc o, climb u root f l acc = Ret o -> forall f', (f <= f')%nat -> climb u root f' l acc = Ret o.
Proof.
  induction f as [|f IH]; simpl; intros l acc o E f' L; [discriminate|]. destruct f' as [|f']; [lia|]. simpl.
  destruct (String.eqb l root); auto. destruct (lookup l (parent_map u)) as [[n p]|]; auto. apply IH; auto. lia.
Qed.
(** The walk ends exactly if it ends for some cut-off, and then the cut-off does not matter. *)
Lemma climb_any u root l acc f o : climb u root f l acc = Ret o ->
  climb u root (S (S (List.length (u_joints u)))) l acc = Ret o.
Proof.
  intros E. destruct (climb u root (S (S (List.length (u_joints u)))) l acc) as [o'|] eqn:E2.
  - destruct (le_ge_dec f (S (S (List.length (u_joints u))))) as [L|L].
    + rewrite (climb_more _ _ _ _ _ _ E _ L) in E2. congruence.
    + rewrite (climb_more _ _ _ _ _ _ E2 _ L) in E. congruence.
  - exfalso. assert (E3 : climb u root (S (List.length (u_joints u))) l acc = Hang).
    { destruct (climb u root (S (List.length (u_joints u))) l acc) as [o'|] eqn:E3; auto.
      apply climb_more with (f' := S (S (List.length (u_joints u)))) in E3; [congruence|lia]. }
    pose proof (climb_fuel _ _ _ _ E3 f acc). congruence.
Qed.
Lemma climb_acc u root f : forall l acc names, climb u root f l acc = Ret (Ok names) ->
  exists pre, names = pre ++ acc /\ forall acc', climb u root f l acc' = Ret (Ok (pre ++ acc')).
Proof.
  induction f as [|f IH]; simpl; intros l acc names E; [discriminate|].
  destruct (String.eqb l root). { exists []. injection E as <-. auto. }
  destruct (lookup l (parent_map u)) as [[n p]|]; [|discriminate].
  apply IH in E. destruct E as [pre [-> E]]. exists (pre ++ [n]). rewrite <- app_assoc. split; auto.
  intros acc'. rewrite E, <- app_assoc. reflexivity.
Qed.
Lemma climb_path u root : tidy u -> forall f l names, climb u root f l [] = Ret (Ok names) ->
  exists js, path u root l js /\ names = map j_name js.
Proof.
  intros T. induction f as [|f IH]; simpl; intros l names E; [discriminate|].
  destruct (String.eqb_spec l root) as [->|N]. { injection E as <-. exists []. split; [constructor|auto]. }
  destruct (lookup l (parent_map u)) as [[n p]|] eqn:L; [|discriminate].
  destruct (parent_in _ _ _ _ L) as [j [Ij [Ec [En Ep]]]].
  destruct (climb_acc _ _ _ _ _ _ E) as [pre [-> E']]. specialize (E' []). rewrite app_nil_r in E'.
  destruct (IH _ _ E') as [js [Pj ->]]. exists (js ++ [j]). subst. split.
  - constructor; auto.
  - rewrite map_app. reflexivity.
Qed.
Lemma path_climb u root l js : tidy u -> path u root l js ->
  forall acc, climb u root (S (List.length js)) l acc = Ret (Ok (map j_name js ++ acc)).
Proof.
  intros T Pj. induction Pj as [|j js Pj IH Ij N]; intros acc.
  - simpl. now rewrite String.eqb_refl.
  - rewrite app_length, map_app. simpl. rewrite Nat.add_1_r. destruct (String.eqb_spec (j_child j) root); [congruence|].
    rewrite (parent_lookup u j T Ij). rewrite IH, <- app_assoc. reflexivity.
Qed.
Lemma get_chain_path u root l js : tidy u -> path u root l js -> get_chain u root l = Ret (Ok (map j_name js)).
Proof.
  intros T Pj. unfold get_chain. eapply climb_any. rewrite (path_climb u root l js T Pj []). now rewrite app_nil_r.
Qed.
Lemma path_in u root l js : path u root l js -> forall j, In j js -> In j (u_joints u).
Proof.
  induction 1; intros j' I; [destruct I|]. apply in_app_iff in I. destruct I as [I|[<-|[]]]; auto.
Qed.
Lemma map_name_inj u js js' : tidy u -> (forall j, In j js -> In j (u_joints u)) -> (forall j, In j js' -> In j (u_joints u)) ->
  map j_name js = map j_name js' -> js = js'.
Proof.
  intros T. revert js'. induction js as [|j js IH]; intros [|j' js'] I I' E; try discriminate; auto.
  simpl in E. injection E as E1 E2. f_equal.
  - assert (A := joint_lookup u j T (I j (or_introl eq_refl))).
    assert (B := joint_lookup u j' T (I' j' (or_introl eq_refl))). congruence.
  - apply IH; auto; intros; [apply I|apply I']; now right.
Qed.
Lemma path_unique u root l js js' : tidy u -> path u root l js -> path u root l js' -> js = js'.
Proof.
  intros T A B. apply (map_name_inj u); eauto using path_in.
  pose proof (get_chain_path _ _ _ _ T A). pose proof (get_chain_path _ _ _ _ T B). congruence.
Qed.
Lemma climb_err u root f : forall l acc e, climb u root f l acc = Ret (Err e) -> e = KeyError.
Proof.
  induction f as [|f IH]; simpl; intros l acc e; [discriminate|]. destruct (String.eqb l root); [discriminate|].
  destruct (lookup l (parent_map u)) as [[n p]|]; [apply IH|congruence].
Qed.
Lemma climb_acyclic u root (rank : string -> nat) : (forall j, In j (u_joints u) -> (rank (j_parent j) < rank (j_child j))%nat) ->
  forall f l acc, (rank l < f)%nat -> climb u root f l acc <> Hang.
Proof.
  intros A. induction f as [|f IH]; intros l acc L; [lia|]. simpl. destruct (String.eqb l root); [discriminate|].
  destruct (lookup l (parent_map u)) as [[n p]|] eqn:E; [|discriminate].
  destruct (parent_in _ _ _ _ E) as [j [Ij [<- [_ <-]]]]. apply IH. specialize (A j Ij). lia.
Qed.
Lemma get_chain_acyclic u root l : acyclic u -> exists o, get_chain u root l = Ret o.
Proof.
  intros [rank A]. destruct (climb u root (S (rank l)) l []) as [o|] eqn:E.
  - exists o. unfold get_chain. eapply climb_any, E.
  - exfalso. revert E. apply (climb_acyclic u root rank A). lia.
Qed.
(** Every outcome of get_chain. *)
Lemma get_chain_cases u root l : tidy u ->
  get_chain u root l = Hang \/
  (exists js, path u root l js /\ get_chain u root l = Ret (Ok (map j_name js))) \/
  ((forall js, ~ path u root l js) /\ get_chain u root l = Ret (Err KeyError)).
Proof.
  intros T. destruct (get_chain u root l) as [[names|e]|] eqn:E; auto; right.
  - left. unfold get_chain in E. destruct (climb_path u root T _ _ _ E) as [js [Pj ->]]. eauto.
  - right. split. 2: { unfold get_chain in E. now rewrite (climb_err _ _ _ _ _ _ E). }
    intros js Pj. rewrite (get_chain_path _ _ _ _ T Pj) in E. discriminate.
Qed.

(* ---------- choosing the tip ---------- *)
Definition good_chain (js : list ujoint) : Prop :=
  (forall j, In j js -> j_kind j <> Floating) /\ exists j, In j js /\ j_kind j <> Fixed.
Lemma is_kind_ok u j k : tidy u -> In j (u_joints u) ->
  is_kind k u (j_name j) = Ok (match k, j_kind j with Fixed, Fixed | Floating, Floating => true | _, _ => false end).
Proof. intros T I. unfold is_kind, get. now rewrite (joint_lookup u j T I). Qed.
Lemma any_floating u js : tidy u -> (forall j, In j js -> In j (u_joints u)) ->
  (any_out (is_kind Floating u) (map j_name js) = Ok true /\ exists j, In j js /\ j_kind j = Floating) \/
  (any_out (is_kind Floating u) (map j_name js) = Ok false /\ forall j, In j js -> j_kind j <> Floating).
Proof.
  intros T. induction js as [|j js IH]; intros I; simpl.
  - right. split; [auto|intros j []].
  - rewrite (is_kind_ok u j Floating T (I j (or_introl eq_refl))). simpl.
    destruct IH as [[E [j' [I' K]]]|[E K]]. { intros j' I'. apply I. now right. }
    + destruct (j_kind j) eqn:Kj; try (left; split; [exact E|exists j'; auto; fail]).
      left. split; auto. exists j. auto.
    + destruct (j_kind j) eqn:Kj; try (right; split; [exact E|intros j' [<-|I']; [congruence|auto]]).
      left. split; auto. exists j. auto.
Qed.
Lemma all_fixed u js : tidy u -> (forall j, In j js -> In j (u_joints u)) ->
  (all_out (is_kind Fixed u) (map j_name js) = Ok true /\ forall j, In j js -> j_kind j = Fixed) \/
  (all_out (is_kind Fixed u) (map j_name js) = Ok false /\ exists j, In j js /\ j_kind j <> Fixed).
Proof.
  intros T. induction js as [|j js IH]; intros I; simpl.
  - left. split; [auto|intros j []].
  - rewrite (is_kind_ok u j Fixed T (I j (or_introl eq_refl))). simpl.
    destruct IH as [[E K]|[E [j' [I' K]]]]. { intros j' I'. apply I. now right. }
    + destruct (j_kind j) eqn:Kj; try (right; split; [reflexivity|exists j; split; [auto|congruence]]).
      left. split; auto. intros j' [<-|I']; auto.
    + destruct (j_kind j) eqn:Kj; try (right; split; [reflexivity|exists j; split; [auto|congruence]]).
      right. split; auto. exists j'; auto.
Qed.
Lemma usable_spec u js : tidy u -> (forall j, In j js -> In j (u_joints u)) ->
  (usable u (map j_name js) = Ok true /\ good_chain js) \/ (usable u (map j_name js) = Ok false /\ ~ good_chain js).
Proof.
  intros T I. unfold usable, good_chain. destruct (any_floating u js T I) as [[E [j [Ij K]]]|[E K]]; rewrite E; simpl.
  - right. split; auto. intros [A _]. exact (A j Ij K).
  - destruct (all_fixed u js T I) as [[F A]|[F A]]; rewrite F; simpl.
    + right. split; auto. intros [_ [j [Ij N]]]. auto.
    + left. auto.
Qed.
Definition reach (u : urdf) (root t : string) : Prop :=
  (forall j, In j (u_joints u) -> j_parent j <> t) /\ exists js, path u root t js /\ good_chain js.
Lemma tip_links_spec u root : tidy u -> forall ls,
  (tip_links u root ls = Hang /\ exists l, In l ls /\ get_chain u root l = Hang) \/
  exists ts, tip_links u root ls = Ret (Ok ts) /\ (forall t, In t ts <-> In t ls /\ reach u root t) /\ (NoDup ls -> NoDup ts).
Proof.
  intros T. induction ls as [|l ls IH]; simpl.
  - right. exists []. repeat split; auto; try tauto; intros; simpl in *; tauto.
  - assert (Skip : ~ reach u root l -> forall X, X = tip_links u root ls ->
      (X = Hang /\ exists l0, (l = l0 \/ In l0 ls) /\ get_chain u root l0 = Hang) \/
      exists ts, X = Ret (Ok ts) /\ (forall t, In t ts <-> (l = t \/ In t ls) /\ reach u root t) /\ (NoDup (l :: ls) -> NoDup ts)).
    { intros N X ->. destruct IH as [[E [l0 [I0 H0]]]|[ts [E [M D]]]].
      - left. split; auto. exists l0. auto.
      - right. exists ts. split; [auto|]. split.
        + intros t. rewrite M. split; [tauto|]. intros [[<-|I] C]; [contradiction|auto].
        + intros ND. inversion ND. auto. }
    destruct (in_child_map u l) eqn:C.
    + apply Skip; auto. intros [A _]. rewrite <- in_child_map_spec in A. congruence.
    + rewrite in_child_map_spec in C.
      destruct (get_chain_cases u root l T) as [E|[[js [Pj E]]|[N E]]]; rewrite E.
      * left. split; auto. exists l; auto.
      * cbn [bind]. destruct (usable_spec u js T (path_in _ _ _ _ Pj)) as [[F G]|[F G]]; rewrite F.
        -- destruct IH as [[E' [l0 [I0 H0]]]|[ts [E' [M D]]]]; rewrite E'; simpl.
           ++ left. split; auto. exists l0; auto.
           ++ right. exists (l :: ts). split; [auto|]. split.
              ** intros t. simpl. rewrite M. split; [|tauto].
                 intros [<-|H]; [|tauto]. split; auto. split; auto. exists js; auto.
              ** intros ND. inversion ND; subst. constructor; auto. rewrite M. tauto.
        -- apply Skip; auto. intros [_ [js' [Pj' G']]]. rewrite (path_unique u root l js js' T Pj Pj') in G. contradiction.
      * cbn [bind]. apply Skip; auto. intros [_ [js [Pj _]]]. exact (N js Pj).
Qed.
Lemma get_root_cases u :
  (exists r, get_root u = Ok r /\ is_root u r /\ forall r', is_root u r' -> r' = r) \/
  (get_root u = Err AssertionError /\ ~ exists r, is_root u r /\ forall r', is_root u r' -> r' = r).
Proof.
  unfold get_root.
  set (f := fun l => match lookup l (parent_map u) with None => true | Some _ => false end).
  assert (M : forall l, In l (filter f (keys [] (map fst (link_map u)))) <-> is_root u l).
  { intros l. rewrite filter_In, keys_declared. unfold is_root. rewrite <- parent_none. unfold f.
    destruct (lookup l (parent_map u)); intuition congruence. }
  assert (D : NoDup (filter f (keys [] (map fst (link_map u))))) by apply NoDup_filter, keys_nodup.
  destruct (filter f (keys [] (map fst (link_map u)))) as [|a [|b rest]].
  - right. split; auto. intros [r [A _]]. apply M in A. destruct A.
  - left. exists a. split; auto. split. { apply M. now left. } intros r' A. apply M in A. destruct A as [A|[]]. auto.
  - right. split; auto. intros [r [A B]]. inversion D as [|? ? N D']; subst. apply N.
    assert (Ea : a = r) by (apply B, M; now left). assert (Eb : b = r) by (apply B, M; right; now left).
    left. congruence.
Qed.

(* ---------- the loop over the chain ---------- *)
Lemma rpy_mvec a x : mvec (rpy_to_rot a) x = rpy_turn a x.
Proof.
  unfold rpy_to_rot, rpy_turn. rewrite !mvec_mmul.
  rewrite <- !rot_rotate by (unfold unit3, dot; simpl; ring). reflexivity.
Qed.
Lemma rpy_SO3 a : is_SO3 (rpy_to_rot a).
Proof. unfold rpy_to_rot. repeat apply SO3_mmul; apply rot_SO3; unfold unit3, dot; simpl; ring. Qed.
Definition next_p (s : lstate) (j : ujoint) : vec3 :=
  match j_origin j with
  | Some o => match o_xyz o with Some x => vadd (s_p s) (mvec (s_R s) x) | None => s_p s end
  | None => s_p s end.
Definition next_R (Rm : mat3) (j : ujoint) : mat3 :=
  match j_origin j with
  | Some o => match o_rpy o with Some a => mmul Rm (rpy_to_rot a) | None => Rm end
  | None => Rm end.
Lemma next_SO3 Rm j : is_SO3 Rm -> is_SO3 (next_R Rm j).
Proof. intros H. unfold next_R. destruct (j_origin j) as [o|]; auto. destruct (o_rpy o); auto. apply SO3_mmul; auto. apply rpy_SO3. Qed.
Lemma next_point s j x :
  vadd (s_p s) (mvec (s_R s) (origin_motion (j_origin j) x)) = vadd (next_p s j) (mvec (next_R (s_R s) j) x).
Proof.
  unfold next_p, next_R, origin_motion, or0. destruct (j_origin j) as [[xyz rpy]|]; simpl; auto.
  destruct xyz as [v|], rpy as [a|]; rewrite ?mvec_vadd, ?mvec_mmul, ?rpy_mvec, ?vadd_assoc; auto; la_ring.
Qed.
(** The state after a joint of the chain, whatever the inertia. *)
Definition after (s : lstate) (j : ujoint) (m : option mat6) : lstate :=
  let Rm := next_R (s_R s) j in
  if moving j then
    Lst (s_P s ++ [next_p s j]) vzero Rm (s_H s ++ [mvec Rm (axis_of j)])
        (s_type s ++ [match j_kind j with Revolute => 0%Z | _ => 1%Z end])
        (s_lower s ++ [limit_of l_lower j]) (s_upper s ++ [limit_of l_upper j]) (s_vel s ++ [limit_of l_vel j])
        (s_effort s ++ [limit_of l_effort j]) (s_names s ++ [j_name j]) (s_M s ++ [m]) None
  else Lst (s_P s) (next_p s j) Rm (s_H s) (s_type s) (s_lower s) (s_upper s) (s_vel s) (s_effort s) (s_names s) (s_M s) m.
Definition inert (u : urdf) (s : lstate) (j : ujoint) : out (option mat6) :=
  let* ci := get (link_map u) (j_child j) in
  match ci with
  | None => Ok (s_m s)
  | Some _ => let* pi := get (link_map u) (j_parent j) in
              Ok (append_inertia (s_m s) (convert_inertial pi (next_R (s_R s) j)))
  end.
Lemma load_joint_eq u s j : tidy u -> In j (u_joints u) ->
  load_joint u s (j_name j) =
  let* m := inert u s j in
  match j_kind j with
  | Fixed => Ok (after s j m)
  | Revolute | Sliding => match j_axis j with None => Err ValueError | Some _ => Ok (after s j m) end
  | _ => Err AssertionError
  end.
Proof.
  intros T I. unfold load_joint, inert. unfold get at 1. rewrite (joint_lookup u j T I). cbn [bind].
  change (match j_origin j with
          | Some o => match o_rpy o with Some a => mmul (s_R s) (rpy_to_rot a) | None => s_R s end
          | None => s_R s end) with (next_R (s_R s) j).
  destruct (get (link_map u) (j_child j)) as [[i|]|e]; cbn [bind]; auto.
  - destruct (get (link_map u) (j_parent j)) as [pi|e]; cbn [bind]; auto.
    unfold after, moving, axis_of, limit_of, next_p. destruct (j_kind j); auto; destruct (j_axis j); auto.
  - unfold after, moving, axis_of, limit_of, next_p. destruct (j_kind j); auto; destruct (j_axis j); auto.
Qed.
Lemma load_joint_ok u s j s' : tidy u -> In j (u_joints u) -> load_joint u s (j_name j) = Ok s' ->
  supported j /\ exists m, inert u s j = Ok m /\ s' = after s j m.
Proof.
  intros T I. rewrite (load_joint_eq u s j T I). unfold supported. destruct (inert u s j) as [m|e]; simpl; [|discriminate].
  destruct (j_kind j) eqn:K; try discriminate.
  - intros [= <-]. split; auto. eauto.
  - destruct (j_axis j); [|discriminate]. intros [= <-]. split; eauto. right. split; auto. discriminate.
  - destruct (j_axis j); [|discriminate]. intros [= <-]. split; eauto. right. split; auto. discriminate.
Qed.

Definition mtype (j : ujoint) : jtype := match j_kind j with Revolute => Rotary | _ => Prismatic end.
Lemma chain_1 ty h H p P t q x j : chain (j :: ty) (h :: H) (p :: P) (t :: q) x = joint_motion j h t (vadd p (chain ty H P q x)).
Proof. reflexivity. Qed.
Lemma fold_after u : tidy u -> forall js s s', (forall j, In j js -> In j (u_joints u)) ->
  fold_out (load_joint u) (map j_name js) s = Ok s' ->
  Forall supported js /\
  (is_SO3 (s_R s) -> is_SO3 (s_R s')) /\
  let ms := filter moving js in
  s_type s' = s_type s ++ map (fun j => match mtype j with Rotary => 0%Z | _ => 1%Z end) ms /\
  s_lower s' = s_lower s ++ map (limit_of l_lower) ms /\
  s_upper s' = s_upper s ++ map (limit_of l_upper) ms /\
  s_vel s' = s_vel s ++ map (limit_of l_vel) ms /\
  s_effort s' = s_effort s ++ map (limit_of l_effort) ms /\
  s_names s' = s_names s ++ map j_name ms /\
  List.length (s_M s') = (List.length (s_M s) + List.length ms)%nat /\
  exists H' P', s_H s' = s_H s ++ H' /\ s_P s' ++ [s_p s'] = s_P s ++ P' /\
    List.length H' = List.length ms /\ List.length P' = S (List.length ms) /\
    (is_SO3 (s_R s) -> unit_axes js -> Forall unit3 H' /\
     forall q x, List.length q = List.length ms ->
       vadd (s_p s) (mvec (s_R s) (urdf_point js q x)) =
       vadd (hd vzero P') (chain (map mtype ms) H' (tl P') q (mvec (s_R s') x))).
Proof.
  intros T. induction js as [|j js IH]; intros s s' I.
  - simpl. intros [= <-]. split; [constructor|]. split; auto. rewrite !app_nil_r, Nat.add_0_r. do 7 (split; auto).
    exists [], [s_p s]. rewrite app_nil_r. repeat split; auto.
  - cbn [map fold_out]. destruct (load_joint u s (j_name j)) as [s1|e] eqn:E1; [|discriminate]. cbn [bind]. intros E2.
    destruct (load_joint_ok u s j s1 T (I j (or_introl eq_refl)) E1) as [Sj [m [_ ->]]].
    destruct (IH _ _ (fun j' I' => I j' (or_intror I')) E2) as
      (F & SO & A1 & A2 & A3 & A4 & A5 & A6 & A7 & H' & P' & B1 & B2 & B3 & B4 & B5).
    split; [constructor; auto|]. split.
    { intros S3. apply SO. unfold after. destruct (moving j); apply next_SO3; auto. }
    cbn [filter]. cbv zeta. unfold after in *. destruct (moving j) eqn:Mj; cbn [s_type s_lower s_upper s_vel s_effort s_names s_M s_H s_P s_p s_R] in *.
    + rewrite A1, A2, A3, A4, A5, A6, A7, <- !app_assoc, app_length. simpl.
      split. { f_equal. f_equal. unfold mtype. destruct (j_kind j); auto. }
      do 5 (split; auto). split; [lia|].
      exists (mvec (next_R (s_R s) j) (axis_of j) :: H'), (next_p s j :: P').
      rewrite B1, B2, <- !app_assoc. simpl. split; auto. split; auto. split; [lia|]. split; [lia|].
      intros S3 U. assert (S3' := next_SO3 (s_R s) j S3).
      assert (Uj : unit3 (axis_of j)) by (apply U; [now left|auto]).
      destruct (B5 S3' (fun j' I' => U j' (or_intror I'))) as [U' C]. split.
      { constructor; auto. apply SO3_unit; auto. }
      intros q x L. destruct q as [|t q]; [discriminate|]. simpl in L. injection L as L. specialize (C q x L).
      rewrite next_point. f_equal.
      destruct P' as [|p P']; [discriminate|]. cbn [hd tl] in C |- *.
      assert (C' : vadd p (chain (map mtype (filter moving js)) H' P' q (mvec (s_R s') x)) =
                   mvec (next_R (s_R s) j) (urdf_point js q x)).
      { rewrite <- C. la_ring. }
      cbn [chain]. rewrite C'. destruct Sj as [K|[[K|K] _]].
      * unfold moving in Mj. rewrite K in Mj. discriminate.
      * unfold mtype. rewrite K. cbn [joint_motion]. rewrite <- !rot_rotate by (auto; apply SO3_unit; auto).
        apply rot_mvec_conj; auto.
      * unfold mtype. rewrite K. cbn [joint_motion]. rewrite mvec_vadd, mvec_vscale. reflexivity.
    + rewrite A1, A2, A3, A4, A5, A6, A7. do 6 (split; auto). split; [lia|].
      exists H', P'. rewrite B1, B2. repeat (split; auto).
      { apply B5; auto. apply next_SO3; auto. intros j' I'. apply H0. now right. }
      intros q x L. assert (K : j_kind j = Fixed) by (unfold moving in Mj; destruct (j_kind j); auto; discriminate).
      simpl urdf_point. rewrite K, next_point. apply B5; auto. apply next_SO3; auto. intros j' I'. apply H0. now right.
Qed.

(* ---------- the robot built from the chain ---------- *)
Lemma zero_not_SO3 A : is_SO3 A -> m_isclose (1/100000) (1/100000) mzero A = false.
Proof.
  intros S3. apply not_true_iff_false. intros H. unfold m_isclose in H. rewrite !andb_true_iff, !isclose_iff in H.
  destruct S3 as [E _]. destruct A as [a00 a01 a02 a10 a11 a12 a20 a21 a22]. unfold mmul, mT, I3 in E. simpl in E.
  injection E as E _ _ _ _ _ _ _ _. unfold np_close, mzero in H. simpl in H.
  destruct H as [[[[[[[[H0 _] _] H1] _] _] H2] _] _].
  assert (K : forall x, Rabs (0 - x) <= 1/100000 + 1/100000 * Rabs x -> x * x <= 1/100).
  { intros x Hx. rewrite Rminus_0_l, Rabs_Ropp in Hx. assert (B : Rabs x <= 1/10) by (pose proof (Rabs_pos x); lra).
    replace (x * x) with (Rabs x * Rabs x) by (unfold Rabs; destruct (Rcase_abs x); ring).
    pose proof (Rabs_pos x). nra. }
  apply K in H0. apply K in H1. apply K in H2. lra.
Qed.
Lemma all_some_iff {A} (l : list (option A)) xs : all_some l = Some xs <-> Forall2 (fun o x => o = Some x) l xs.
Proof.
  revert xs. induction l as [|[a|] l IH]; intros xs; simpl.
  - split. intros [= <-]; constructor. intros H; inversion H; auto.
  - destruct (all_some l) as [ys|].
    + split.
      * intros [= <-]. constructor; auto. now apply IH.
      * intros H. inversion H; subst. f_equal. f_equal. congruence.
        assert (Some ys = Some l') by (apply IH; auto). congruence.
    + split; [discriminate|]. intros H. inversion H; subst. apply IH in H4. discriminate.
  - split; [discriminate|]. intros H. inversion H; discriminate.
Qed.
Lemma all_limits_iff f js l : all_some (map (limit_of f) js) = Some l <-> all_limits f js l.
Proof.
  rewrite all_some_iff. unfold all_limits. revert l. induction js as [|j js IH]; intros l; simpl.
  - split; intros H; inversion H; constructor.
  - split; intros H; inversion H; subst; constructor; auto; apply IH; auto.
Qed.
Lemma col_inj a b : map col a = map col b -> a = b.
Proof.
  revert b. induction a as [|[x y z] a IH]; intros [|[x' y' z'] b]; simpl; try discriminate; auto.
  unfold col at 1 3. simpl. intros E. injection E as -> -> -> E. f_equal. auto.
Qed.
Lemma jcode_inj a b : map jcode a = map jcode b -> a = b.
Proof.
  revert b. induction a as [|x a IH]; intros [|y b]; simpl; try discriminate; auto.
  intros E. injection E as E1 E2. f_equal; auto. destruct x, y; simpl in E1; congruence || reflexivity.
Qed.
Lemma mtype_code ms : map (fun j => match mtype j with Rotary => 0%Z | _ => 1%Z end) ms = map jcode (map mtype ms).
Proof. rewrite map_map. apply map_ext. intros j. unfold mtype. destruct (j_kind j); auto. Qed.
Lemma col_rect l : rectangular (Cols 3 (map col l)).
Proof. unfold rectangular. simpl. apply Forall_map. apply Forall_forall. reflexivity. Qed.
(** The arguments given to the constructor. *)
Definition cargs (s : lstate) (m : option mat6) (root tip : string) : robot_args :=
  let lims := match all_some (s_lower s), all_some (s_upper s) with
              | Some l, Some u => (Some l, Some u) | _, _ => (None, None) end in
  Ra (Cols 3 (map col (s_H s))) (Cols 3 (map col (s_P s ++ [s_p s]))) (s_type s)
     (fst lims) (snd lims) (all_some (s_vel s)) None
     (match all_some (s_M s ++ [m]) with Some l => Some (map rows6 l) | None => None end)
     (Some (s_R s)) (Some vzero) (Some (s_names s)) (Some root) (Some tip) None None.
Definition tip_inert (u : urdf) (s : lstate) (js : list ujoint) (i : option uinertial) : option mat6 :=
  append_inertia (s_m s) (convert_inertial i (s_R s)).
Lemma map_get u js : tidy u -> (forall j, In j js -> In j (u_joints u)) -> map_out (get (joint_map u)) (map j_name js) = Ok js.
Proof.
  intros T. induction js as [|j js IH]; intros I; simpl; auto.
  unfold get at 1. rewrite (joint_lookup u j T (I j (or_introl eq_refl))). simpl. rewrite IH; auto. intros. apply I. now right.
Qed.
Lemma last_map js j d : last (map j_name (js ++ [j])) d = j_name j.
Proof. rewrite map_app. simpl. apply last_last. Qed.
Lemma load_chain_eq u root tip js j : tidy u -> (forall j', In j' (js ++ [j]) -> In j' (u_joints u)) ->
  load_chain u root tip (map j_name (js ++ [j])) =
  let* s := fold_out (load_joint u) (map j_name (js ++ [j])) lstart in
  let* i := get (link_map u) (j_child j) in
  let* r := Robot_init (cargs s (tip_inert u s js i) root tip) in
  Ok (r, all_some (s_effort s)).
Proof.
  intros T I. unfold load_chain. rewrite last_map, (map_get u _ T I).
  replace (List.length (map j_name (js ++ [j]))) with (S (List.length js)) by (rewrite map_length, app_length; simpl; lia).
  cbn [Nat.eqb negb assert_ bind].
  destruct (fold_out (load_joint u) (map j_name (js ++ [j])) lstart) as [s|e] eqn:E; cbn [bind]; auto.
  unfold get at 1. rewrite (joint_lookup u j T) by (apply I, in_or_app; right; now left). cbn [bind].
  destruct (get (link_map u) (j_child j)) as [i|e]; cbn [bind]; auto.
  assert (S3 : is_SO3 (s_R s)) by (apply (fold_after u T _ _ _ I E); apply SO3_I).
  rewrite (zero_not_SO3 _ S3). unfold cargs, tip_inert. cbn [fst snd]. reflexivity.
Qed.
Lemma path_last u root tip js : path u root tip js -> js = [] /\ tip = root \/ exists js' j, js = js' ++ [j] /\ j_child j = tip /\ In j (u_joints u).
Proof. destruct 1; eauto 8. Qed.
Lemma load_chain_nil u root tip : load_chain u root tip [] = Err AssertionError.
Proof. reflexivity. Qed.

Lemma load_chain_ok u root tip js r eff : tidy u -> path u root tip js ->
  load_chain u root tip (map j_name js) = Ok (r, eff) ->
  let ms := filter moving js in
  js <> [] /\ Forall supported js /\ rtype r = map mtype ms /\ rnames r = Some (map j_name ms) /\
  rroot r = Some root /\ rtip r = Some tip /\
  (forall l h, rlower r = Some l /\ rupper r = Some h <-> all_limits l_lower ms l /\ all_limits l_upper ms h) /\
  (rlower r = None <-> rupper r = None) /\
  (forall v, rvel r = Some v <-> all_limits l_vel ms v) /\ racc r = None /\
  (forall e, eff = Some e <-> all_limits l_effort ms e) /\
  (unit_axes js -> wf_robot r /\ wf_aux r /\
    forall q x, List.length q = List.length ms -> robot_point r q x = urdf_point js q x).
Proof.
  intros T Pj E ms. assert (I := path_in _ _ _ _ Pj).
  destruct (path_last _ _ _ _ Pj) as [[-> _]|[js' [j [-> [Ec Ij]]]]]; [discriminate|].
  rewrite (load_chain_eq u root tip js' j T I) in E.
  apply bind_ok in E. destruct E as [s [Es E]]. apply bind_ok in E. destruct E as [i [Ei E]].
  apply bind_ok in E. destruct E as [r' [Er E]]. injection E as <- Ee.
  destruct (fold_after u T _ _ _ I Es) as (F & SO & A1 & A2 & A3 & A4 & A5 & A6 & A7 & H' & P' & B1 & B2 & B3 & B4 & B5).
  fold ms in A1, A2, A3, A4, A5, A6, A7, B3, B4, B5. specialize (SO SO3_I). specialize (B5 SO3_I). simpl in A1, A2, A3, A4, A5, A6, A7, B1, B2, B5.
  destruct (Robot_init_stored _ _ Er) as (C1 & C2 & C3 & C4 & C5 & C6 & C7 & C8 & C9 & C10 & C11 & C12 & C13).
  unfold cargs in C1, C2, C3, C4, C5, C6, C7, C8, C9, C10, C11, C12, C13.
  cbn [aH aP atype alower aupper avel aacc aM aRtool aptool anames aroot atip aflange abase columns] in *.
  apply (col_inj (rH r')) in C1. apply (col_inj (rP r')) in C2. rewrite A1, mtype_code in C3. apply jcode_inj in C3.
  rewrite A2, A3 in C4. rewrite A4 in C6. rewrite A5 in Ee. rewrite A6 in C9.
  split. { intros X. destruct js'; discriminate. }
  split; auto. split; auto. split; auto. split; auto. split; auto. split.
  { intros l h. rewrite <- !all_limits_iff.
    destruct (all_some (map (limit_of l_lower) ms)) as [l'|], (all_some (map (limit_of l_upper) ms)) as [h'|];
      cbn [fst snd] in C4; injection C4 as -> ->; split; intros [X Y]; try discriminate; auto. }
  split. { destruct (all_some (map (limit_of l_lower) ms)) as [l'|], (all_some (map (limit_of l_upper) ms)) as [h'|];
      cbn [fst snd] in C4; injection C4 as -> ->; split; intros; try discriminate; auto. }
  split. { intros v. rewrite <- all_limits_iff, C6. reflexivity. }
  split; auto.
  split. { intros e. rewrite <- all_limits_iff, <- Ee. reflexivity. }
  intros U. destruct (B5 U) as [U' Cp].
  assert (UH : Forall unit3 (rH r')) by (rewrite C1, B1; auto).
  destruct (Robot_init_wf (cargs s (tip_inert u s js' i) root tip) r' (col_rect _) (col_rect _) Er UH) as [W Pair].
  split; auto. assert (ER : rRtool r' = Some (s_R s)) by congruence. assert (Ep : rptool r' = Some vzero) by congruence.
  split. { constructor; auto. intros A EA. rewrite ER in EA. injection EA as <-. auto. rewrite C12. exact Logic.I. rewrite C13; exact Logic.I. }
  intros q x L. specialize (Cp q x L). unfold robot_point, act_tool. rewrite ER, Ep, C12, C13, C1, C2, C3, B1, B2.
  cbn [act_opt]. replace (vadd (mvec (s_R s) x) vzero) with (mvec (s_R s) x) by la_ring.
  rewrite <- Cp, mvec_I. generalize (urdf_point (js' ++ [j]) q x). intros y. la_ring.
Qed.

(* ---------- loading succeeds, or fails with an AssertionError ---------- *)
Lemma inert_ok u s j : declared u (j_parent j) -> declared u (j_child j) -> exists m, inert u s j = Ok m.
Proof.
  intros Dp Dc. unfold inert. destruct (get_declared u _ Dc) as [ci ->]. simpl. destruct ci; [|eauto].
  destruct (get_declared u _ Dp) as [pi ->]. simpl. eauto.
Qed.
Lemma fold_ok u : tidy u -> connected u -> forall js s, (forall j, In j js -> In j (u_joints u)) -> Forall supported js ->
  exists s', fold_out (load_joint u) (map j_name js) s = Ok s'.
Proof.
  intros T C. induction js as [|j js IH]; intros s I F; simpl; [eauto|]. inversion F; subst.
  assert (Ij := I j (or_introl eq_refl)). rewrite (load_joint_eq u s j T Ij).
  destruct (C j Ij) as [Dp Dc]. destruct (inert_ok u s j Dp Dc) as [m ->]. simpl.
  assert (X : exists s1, match j_kind j with
    | Fixed => Ok (after s j m)
    | Revolute | Sliding => match j_axis j with Some _ => Ok (after s j m) | None => Err ValueError end
    | _ => Err AssertionError end = Ok s1).
  { destruct H1 as [K|[[K|K] A]]; rewrite K; eauto; destruct (j_axis j); eauto; congruence. }
  destruct X as [s1 ->]. simpl. apply IH; auto. intros; apply I; now right.
Qed.
Lemma fold_exotic u : tidy u -> connected u -> forall js s, (forall j, In j js -> In j (u_joints u)) ->
  (forall j, In j js -> moving j = true -> j_axis j <> None) -> (exists j, In j js /\ exotic j) ->
  fold_out (load_joint u) (map j_name js) s = Err AssertionError.
Proof.
  intros T C. induction js as [|j js IH]; intros s I A [e [Ie X]]; [destruct Ie|]. simpl.
  assert (Ij := I j (or_introl eq_refl)). rewrite (load_joint_eq u s j T Ij).
  destruct (C j Ij) as [Dp Dc]. destruct (inert_ok u s j Dp Dc) as [m ->]. simpl.
  assert (Aj := A j (or_introl eq_refl)). unfold moving in Aj.
  assert (Rest : ~ exotic j -> forall s1, fold_out (load_joint u) (map j_name js) s1 = Err AssertionError).
  { intros N s1. apply IH; [intros; apply I; now right|intros; apply A; auto; now right|].
    exists e. split; auto. destruct Ie; [congruence|auto]. }
  destruct (j_kind j) eqn:K; simpl; auto.
  - apply Rest. unfold exotic. rewrite K. intuition congruence.
  - destruct (j_axis j). 2: destruct Aj; auto. simpl. apply Rest. unfold exotic. rewrite K. intuition congruence.
  - destruct (j_axis j). 2: destruct Aj; auto. simpl. apply Rest. unfold exotic. rewrite K. intuition congruence.
Qed.
Lemma shape_rows6 A : List.length (rows6 A) = 6%nat /\ Forall (fun row => List.length row = 6%nat) (rows6 A).
Proof. split; auto. unfold rows6, rows3. simpl. repeat (apply Forall_cons; [reflexivity|]). constructor. Qed.
Lemma all_some_len {A} (l : list (option A)) xs : all_some l = Some xs -> List.length xs = List.length l.
Proof. rewrite all_some_iff. intros H. induction H; simpl; auto. Qed.
Lemma unit_col_norm v : unit3 v -> Rabs (sqrt (fold_right (fun x s => x * x + s) 0 (col v)) - 1) <= 1/100000000 + 1/100000.
Proof.
  intros U. destruct v as [x y z]. unfold unit3, dot in U. simpl in *.
  replace (x * x + (y * y + (z * z + 0))) with 1 by lra. rewrite sqrt_1. replace (1 - 1) with 0 by ring. rewrite Rabs_R0. lra.
Qed.
Lemma load_chain_loads u root tip js : tidy u -> connected u -> path u root tip js -> js <> [] ->
  Forall supported js -> unit_axes js -> exists r eff, load_chain u root tip (map j_name js) = Ok (r, eff).
Proof.
  intros T C Pj N F U. assert (I := path_in _ _ _ _ Pj).
  destruct (path_last _ _ _ _ Pj) as [[-> _]|[js' [j [-> [Ec Ij]]]]]; [congruence|].
  rewrite (load_chain_eq u root tip js' j T I).
  destruct (fold_ok u T C (js' ++ [j]) lstart I F) as [s Es]. rewrite Es. cbn [bind].
  destruct (get_declared u (j_child j) (proj2 (C j Ij))) as [i ->]. cbn [bind].
  destruct (fold_after u T _ _ _ I Es) as (_ & SO & A1 & A2 & A3 & A4 & A5 & A6 & A7 & H' & P' & B1 & B2 & B3 & B4 & B5).
  set (ms := filter moving (js' ++ [j])) in *. destruct (B5 SO3_I U) as [U' _].
  simpl in A1, A2, A3, A4, A5, A6, A7, B1, B2.
  destruct (Robot_init_cases (cargs s (tip_inert u s js' i) root tip) (col_rect _) (col_rect _)) as [[_ [r ->]]|[V _]].
  { simpl. eauto. }
  exfalso. apply V. constructor; unfold cargs; cbn [aH aP atype alower aupper avel aacc aM anames nrows columns]; auto.
  - rewrite A1, B1, !map_length. auto.
  - rewrite A1, B2, !map_length. auto.
  - rewrite A1. apply Forall_map, Forall_forall. intros x _. destruct (mtype x); lia.
  - rewrite B1. apply Forall_map. eapply Forall_impl; [|exact U']. intros v. apply unit_col_norm.
  - intros l h. destruct (all_some (s_lower s)) as [l'|] eqn:El, (all_some (s_upper s)) as [h'|] eqn:Eh; simpl; intros [= <-] [= <-].
    apply all_some_len in El. apply all_some_len in Eh. rewrite El, Eh, A1, A2, A3, !map_length. auto.
  - unfold len_if. destruct (all_some (s_vel s)) eqn:Ev; auto. apply all_some_len in Ev. rewrite Ev, A4, A1, !map_length. auto.
  - exact Logic.I.
  - destruct (all_some (s_M s ++ [tip_inert u s js' i])) as [Ms|] eqn:EM; auto. apply all_some_len in EM.
    rewrite map_length, EM, app_length, A7, A1, map_length. simpl. split; [lia|].
    apply Forall_map, Forall_forall. intros A _. apply shape_rows6.
  - simpl. rewrite A6, A1, !map_length. auto.
Qed.
Lemma load_chain_exotic u root tip js : tidy u -> connected u -> path u root tip js ->
  (forall j, In j js -> moving j = true -> j_axis j <> None) -> (exists j, In j js /\ exotic j) ->
  load_chain u root tip (map j_name js) = Err AssertionError.
Proof.
  intros T C Pj A X. assert (I := path_in _ _ _ _ Pj).
  destruct (path_last _ _ _ _ Pj) as [[-> _]|[js' [j [-> [Ec Ij]]]]]; [reflexivity|].
  rewrite (load_chain_eq u root tip js' j T I), (fold_exotic u T C _ _ I A X). reflexivity.
Qed.

(* ---------- the whole loader ---------- *)
Lemma reach_candidate u root t : In t (keys [] (map fst (link_map u))) /\ reach u root t <-> candidate u root t.
Proof.
  rewrite keys_declared. unfold reach, candidate, leaf, good_chain. split.
  - intros [D [L [js [Pj G]]]]. split; auto. exists js. auto.
  - intros [[D L] [js [Pj G]]]. split; auto. split; auto. exists js. auto.
Qed.
Lemma root_cases u o :
  (exists root, match o with
             | Some r => match lookup r (link_map u) with Some _ => Ok r | None => Err AssertionError end
             | None => get_root u end = Ok root /\ root_of u o root) \/
  (match o with
   | Some r => match lookup r (link_map u) with Some _ => Ok r | None => Err AssertionError end
   | None => get_root u end = Err AssertionError /\ forall root, ~ root_of u o root).
Proof.
  destruct o as [r|]; simpl.
  - destruct (lookup r (link_map u)) as [i|] eqn:E.
    + left. exists r. repeat split. apply NNPP. intros N. apply lookup_none in N. unfold link_map in E. congruence.
    + right. split; auto. intros root [_ D]. apply lookup_none in E. apply E, D.
  - destruct (get_root_cases u) as [[r [-> [A B]]]|[-> N]]; [left; exists r; auto|right].
    split; auto. intros root X. apply N. exists root. exact X.
Qed.
Lemma from_urdf_ok u ro to r eff : tidy u -> robot_from_urdf u ro to = Ret (Ok (r, eff)) ->
  exists root tip js, root_of u ro root /\ tip_of u root to tip /\ path u root tip js /\
    load_chain u root tip (map j_name js) = Ok (r, eff).
Proof.
  intros T. unfold robot_from_urdf. destruct (root_cases u ro) as [[root [-> Ro]]|[-> _]]; simpl; [|discriminate].
  destruct (tip_links_spec u root T (keys [] (map fst (link_map u)))) as [[-> _]|[ts [-> [M D]]]]; simpl; [discriminate|].
  specialize (D (keys_nodup _ _)).
  assert (X : forall tip, (match to with Some t => Ok t | None => match ts with [t] => Ok t | _ => Err AssertionError end end) = Ok tip ->
     tip_of u root to tip).
  { intros tip. destruct to as [t|]; simpl. { congruence. } destruct ts as [|t [|t' ts]]; try discriminate. intros [= <-].
    split. { apply reach_candidate, M. now left. } intros t' C'. apply reach_candidate, M in C'. destruct C' as [|[]]; auto. }
  destruct (match to with Some t => Ok t | None => match ts with [t] => Ok t | _ => Err AssertionError end end) as [tip|e]; simpl; [|discriminate].
  specialize (X tip eq_refl). intros E.
  destruct (get_chain_cases u root tip T) as [G|[[js [Pj G]]|[_ G]]]; rewrite G in E; simpl in E; try discriminate.
  exists root, tip, js. injection E as E. auto.
Qed.
Lemma from_urdf_runs u ro to root tip js : tidy u -> acyclic u -> root_of u ro root -> tip_of u root to tip -> path u root tip js ->
  robot_from_urdf u ro to = Ret (load_chain u root tip (map j_name js)).
Proof.
  intros T A Ro To Pj. unfold robot_from_urdf.
  assert (Er : match ro with
             | Some r => match lookup r (link_map u) with Some _ => Ok r | None => Err AssertionError end
             | None => get_root u end = Ok root).
  { destruct (root_cases u ro) as [[r [E R']]|[_ N]]; [|destruct (N root Ro)]. rewrite E. f_equal.
    destruct ro; simpl in *. { destruct Ro, R'. congruence. } apply Ro. apply R'. }
  rewrite Er. simpl.
  destruct (tip_links_spec u root T (keys [] (map fst (link_map u)))) as [[_ [l [_ H]]]|[ts [-> [M D]]]].
  { destruct (get_chain_acyclic u root l A) as [o O]. congruence. }
  specialize (D (keys_nodup _ _)). simpl.
  assert (Et : (match to with Some t => Ok t | None => match ts with [t] => Ok t | _ => Err AssertionError end end) = Ok tip).
  { destruct to as [t|]; simpl in To; [congruence|]. destruct To as [C U].
    assert (It : In tip ts) by (apply M, reach_candidate, C).
    assert (U' : forall t, In t ts -> t = tip) by (intros t I; apply U, reach_candidate, M, I).
    destruct ts as [|t [|t' ts]]; [destruct It| |].
    - rewrite (U' t (or_introl eq_refl)). auto.
    - exfalso. inversion D; subst. apply H1. left. rewrite (U' t (or_introl eq_refl)). apply U'. right; now left. }
  rewrite Et. simpl. rewrite (get_chain_path u root tip js T Pj). reflexivity.
Qed.
Lemma from_urdf_no_tip u ro root : tidy u -> acyclic u -> root_of u ro root ->
  ~ (exists tip, candidate u root tip /\ forall t, candidate u root t -> t = tip) ->
  robot_from_urdf u ro None = Ret (Err AssertionError).
Proof.
  intros T A Ro N. unfold robot_from_urdf.
  assert (Er : match ro with
             | Some r => match lookup r (link_map u) with Some _ => Ok r | None => Err AssertionError end
             | None => get_root u end = Ok root).
  { destruct (root_cases u ro) as [[r [E R']]|[_ N']]; [|destruct (N' root Ro)]. rewrite E. f_equal.
    destruct ro; simpl in *. { destruct Ro, R'. congruence. } apply Ro. apply R'. }
  rewrite Er. simpl.
  destruct (tip_links_spec u root T (keys [] (map fst (link_map u)))) as [[_ [l [_ H]]]|[ts [-> [M D]]]].
  { destruct (get_chain_acyclic u root l A) as [o O]. congruence. }
  simpl. destruct ts as [|t [|t' ts]]; auto. exfalso. apply N. exists t. split.
  - apply reach_candidate, M. now left.
  - intros t' C. apply reach_candidate, M in C. destruct C as [|[]]; auto.
Qed.
Lemma from_urdf_no_root u ro to : (forall root, ~ root_of u ro root) -> robot_from_urdf u ro to = Ret (Err AssertionError).
Proof.
  intros N. unfold robot_from_urdf. destruct (root_cases u ro) as [[r [_ R']]|[-> _]]; [destruct (N r R')|reflexivity].
Qed.
Lemma from_urdf_no_path u ro root tip : tidy u -> acyclic u -> root_of u ro root -> (forall js, ~ path u root tip js) ->
  robot_from_urdf u ro (Some tip) = Ret (Err KeyError).
Proof.
  intros T A Ro N. unfold robot_from_urdf.
  assert (Er : match ro with
             | Some r => match lookup r (link_map u) with Some _ => Ok r | None => Err AssertionError end
             | None => get_root u end = Ok root).
  { destruct (root_cases u ro) as [[r [E R']]|[_ N']]; [|destruct (N' root Ro)]. rewrite E. f_equal.
    destruct ro; simpl in *. { destruct Ro, R'. congruence. } apply Ro. apply R'. }
  rewrite Er. simpl.
  destruct (tip_links_spec u root T (keys [] (map fst (link_map u)))) as [[_ [l [_ H]]]|[ts [-> [M D]]]].
  { destruct (get_chain_acyclic u root l A) as [o O]. congruence. }
  simpl. destruct (get_chain_cases u root tip T) as [G|[[js [Pj G]]|[_ G]]].
  - destruct (get_chain_acyclic u root tip A) as [o O]. congruence.
  - destruct (N js Pj).
  - now rewrite G.
Qed.
