(** Facts about the Robot Raconteur loader. *)
From Coq Require Import Reals ZArith String List Bool Arith Lra Lia.
From Verif Require Import LinAlg RealAux Py FactsReal FactsLinAlg ModelRot ModelTransform ModelRobot SpecKin FactsKin FactsJac
  FactsInvkin ModelRR SpecRR.
Import ListNotations.
Open Scope R_scope.

Lemma bind_iff {A B} (x : out A) (f : A -> out B) b : bind x f = Ok b <-> exists a, x = Ok a /\ f a = Ok b.
Proof. split; [apply bind_ok|]. intros (a & -> & H). exact H. Qed.
Lemma key_iff v k w : key v k = Ok w <-> at_key v k w.
Proof.
  unfold key, at_key. split.
  - destruct v; try discriminate. destruct (find_key k m) eqn:E; try discriminate. intros H. injection H as <-. eauto.
  - intros (m & -> & ->). reflexivity.
Qed.
Lemma at_key_fun v k a b : at_key v k a -> at_key v k b -> a = b.
Proof. rewrite <- !key_iff. congruence. Qed.
Lemma no_key_at v k w : no_key v k -> ~ at_key v k w.
Proof. intros (m & -> & E) (m' & E' & F). injection E' as <-. congruence. Qed.
Lemma get_opt_iff v k w : get_opt v k = Ok w <-> maybe v k w.
Proof.
  unfold get_opt, maybe, at_key, no_key. split.
  - destruct v; try discriminate. destruct (find_key k m) eqn:E; intros H; injection H as <-; eauto 7.
  - intros [(m & -> & ->)|((m & -> & ->) & ->)]; reflexivity.
Qed.
Lemma len_iff v n : len_of v = Ok n <-> size v n.
Proof.
  split.
  - destruct v; simpl; try discriminate; intros H; injection H as <-; constructor.
  - intros []; reflexivity.
Qed.
Lemma is_null_iff v : is_null v = true <-> v = YNull.
Proof. destruct v; simpl; split; congruence. Qed.
Lemma is_null_false v : is_null v = false <-> v <> YNull.
Proof. destruct v; simpl; split; congruence. Qed.
Lemma py_index_nat n i : py_index n (Z.of_nat i) = if Nat.ltb i n then Some i else None.
Proof.
  unfold py_index. rewrite (proj2 (Z.ltb_ge (Z.of_nat i) 0)) by lia.
  destruct (Nat.ltb_spec i n); destruct (Z.leb_spec 0 (Z.of_nat i)); destruct (Z.ltb_spec (Z.of_nat i) (Z.of_nat n)); simpl; try lia; auto.
  rewrite Nat2Z.id. reflexivity.
Qed.
Lemma item_list l i w : item (YList l) (Z.of_nat i) = Ok w <-> nth_error l i = Some w.
Proof.
  cbn [item]. rewrite py_index_nat. unfold index. destruct (Nat.ltb_spec i (List.length l)).
  - destruct (nth_error l i); split; congruence.
  - assert (N : nth_error l i = None) by (apply nth_error_None; lia). rewrite N. split; congruence.
Qed.

Lemma substring_0 s : String.substring 0 0 s = EmptyString.
Proof. destruct s; reflexivity. Qed.

Section Load.
Context (parse : string -> option (flt R)).
Notation to_float := (to_float parse). Notation to_vec3 := (to_vec3 parse). Notation to_qvec := (to_qvec parse).
Notation to_transform := (to_transform parse). Notation number := (number parse). Notation at_number := (at_number parse).
Notation says_vec := (says_vec parse). Notation says_quat := (says_quat parse). Notation says_transform := (says_transform parse).
Notation says_joint := (says_joint parse). Notation says_joints := (says_joints parse).

Lemma to_float_iff v x : to_float v = Ok (Fin x) <-> number v x.
Proof.
  split.
  - destruct v; simpl; try discriminate.
    + intros H; injection H as <-. repeat constructor.
    + intros H; injection H as <-. repeat constructor.
    + destruct (parse s) eqn:E; try discriminate. intros H; injection H as ->. constructor 2; auto.
  - intros [v' x' []|s x' E]; simpl; auto. rewrite E. reflexivity.
Qed.
Lemma flt_bind_fin {A B} (x : flt A) (f : A -> flt B) b : flt_bind x f = Fin b <-> exists a, x = Fin a /\ f a = Fin b.
Proof. destruct x; simpl; split; try discriminate; eauto. intros (a' & E & H). injection E as ->. auto. intros (? & ? & ?); discriminate. Qed.
Lemma key_number v k x : (exists w, key v k = Ok w /\ to_float w = Ok (Fin x)) <-> at_number v k x.
Proof. unfold SpecRR.at_number. split; intros (w & A & B); exists w; [rewrite <- key_iff, <- to_float_iff|rewrite key_iff, to_float_iff]; auto. Qed.
Lemma to_vec3_iff d p : to_vec3 d = Ok (Fin p) <-> says_vec d p.
Proof.
  unfold ModelRR.to_vec3, SpecRR.says_vec. rewrite <- !key_number. split.
  - intros H. repeat (apply bind_iff in H; destruct H as (? & ? & H)). injection H as H.
    repeat (apply flt_bind_fin in H; destruct H as (? & -> & H)). injection H as <-. cbn [vx vy vz]. eauto 10.
  - destruct p as [x y z]. cbn [vx vy vz]. intros ((a & A1 & A2) & (b & B1 & B2) & (c & C1 & C2)).
    rewrite A1, B1, C1. cbn [bind]. rewrite A2, B2, C2. reflexivity.
Qed.
Lemma to_qvec_iff d q : to_qvec d = Ok (Fin q) <-> says_quat d q.
Proof.
  unfold ModelRR.to_qvec, SpecRR.says_quat. rewrite <- !key_number. split.
  - intros H. repeat (apply bind_iff in H; destruct H as (? & ? & H)). injection H as H.
    repeat (apply flt_bind_fin in H; destruct H as (? & -> & H)). injection H as <-. cbn [q0 q1 q2 q3]. eauto 12.
  - destruct q as [w x y z]. cbn [q0 q1 q2 q3]. intros ((d' & D1 & D2) & (a & A1 & A2) & (b & B1 & B2) & (c & C1 & C2)).
    rewrite D1, A1, B1, C1. cbn [bind]. rewrite D2, A2, B2, C2. reflexivity.
Qed.
Lemma to_transform_iff d T : to_transform d = Ok (Fin T) <-> says_transform d T.
Proof.
  unfold SpecRR.says_transform. split.
  - unfold ModelRR.to_transform. destruct d as [| | | | |m]; try discriminate. intros H.
    apply bind_iff in H; destruct H as (q & Hq & H). apply bind_iff in H; destruct H as (p & Hp & H). injection H as H.
    apply flt_bind_fin in H; destruct H as (q' & -> & H). apply flt_bind_fin in H; destruct H as (p' & -> & H). injection H as <-.
    cbn [tp]. destruct (find_key "orientation" m) as [o|] eqn:E;
    apply bind_iff in Hq; destruct Hq as (a & Ha & Hq); apply bind_iff in Hp; destruct Hp as (b & Hb & Hp);
    apply key_iff in Ha; apply key_iff in Hb; apply to_qvec_iff in Hq; apply to_vec3_iff in Hp;
    exists a, b, q'; repeat (split; [assumption || reflexivity|]).
    + left; auto.
    + right. split; auto. exists m; auto.
  - intros (o & t & q & Q & P & -> & [(A & B)|(N & A & B)]).
    + pose proof A as A'. destruct A' as (m & -> & E). unfold ModelRR.to_transform. rewrite E.
      apply key_iff in A; apply key_iff in B. rewrite A, B. cbn [bind].
      apply to_qvec_iff in Q. apply to_vec3_iff in P. rewrite Q. cbn [bind]. cbn [tp] in P. rewrite P. reflexivity.
    + destruct N as (m & -> & E). unfold ModelRR.to_transform. rewrite E.
      apply key_iff in A; apply key_iff in B. rewrite A, B. cbn [bind].
      apply to_qvec_iff in Q. apply to_vec3_iff in P. rewrite Q. cbn [bind]. cbn [tp] in P. rewrite P. reflexivity.
Qed.
Lemma name_iff v s : identifier_name v = Ok s <-> says_name v s.
Proof.
  unfold says_name. split.
  - destruct v; try (cbn [identifier_name key bind]; discriminate).
    + cbn [identifier_name]. intros H; injection H as ->; auto.
    + intros H. right. unfold identifier_name in H. apply bind_iff in H. destruct H as (n & K & H). apply key_iff in K.
      destruct n; try discriminate. injection H as <-. exact K.
  - intros [->|K]; [reflexivity|]. pose proof K as K'. destruct K' as (m & -> & E). apply key_iff in K.
    unfold identifier_name. rewrite K. reflexivity.
Qed.
Lemma name_not_null v s : says_name v s -> v <> YNull.
Proof. intros [->|(m & -> & _)]; discriminate. Qed.
Lemma name_opt_iff v o : (if is_null v then Ok None else let* s := identifier_name v in Ok (Some s)) = Ok o <-> says_name_opt v o.
Proof.
  unfold says_name_opt. split.
  - destruct (is_null v) eqn:E.
    + apply is_null_iff in E. intros H; injection H as <-. auto.
    + apply is_null_false in E. intros H. right. split; auto. apply bind_iff in H. destruct H as (s & A & B).
      injection B as <-. exists s. split; auto. apply name_iff; auto.
  - intros [(-> & ->)|(N & s & A & ->)]; [reflexivity|]. apply is_null_false in N. rewrite N.
    apply name_iff in A. rewrite A. reflexivity.
Qed.
(* ---- joint numbers ---- *)
Lemma ynum_fun a x y : ynum a x -> ynum a y -> x = y.
Proof. intros [] K; inversion K; auto. Qed.
Lemma ge_false a b : ge a b = Ok false -> (exists x y, ynum a x /\ ynum b y /\ x < y) \/ (exists s t, a = YStr s /\ b = YStr t).
Proof.
  destruct a, b; simpl; try discriminate; intros H; injection H as H.
  - apply Z.leb_gt in H. left. do 2 eexists. split; [constructor|]. split; [constructor|]. apply IZR_lt; auto.
  - apply Rleb_false in H. left. do 2 eexists. split; [constructor|]. split; [constructor|]. lra.
  - apply Rleb_false in H. left. do 2 eexists. split; [constructor|]. split; [constructor|]. lra.
  - apply Rleb_false in H. left. do 2 eexists. split; [constructor|]. split; [constructor|]. lra.
  - right. eauto.
Qed.
Lemma ge_num a b x y : ynum a x -> ynum b y -> x < y -> ge a b = Ok false.
Proof.
  intros [z|x'] [z'|y'] L; simpl; f_equal.
  - apply Z.leb_gt, lt_IZR; auto.
  - apply Rleb_false; lra.
  - apply Rleb_false; lra.
  - apply Rleb_false; lra.
Qed.
Lemma item_ynum v i a x : item v (Z.of_nat i) = Ok a -> ynum a x -> exists l, v = YList l /\ nth_error l i = Some a.
Proof.
  intros E N. destruct v; try (simpl in E; discriminate).
  - simpl in E. destruct (py_index _ _); try discriminate. injection E as <-. inversion N.
  - exists l. split; auto. apply item_list; auto.
Qed.
Lemma check_numbers_iff doc nums i k :
  (1 <= i)%nat ->
  check_numbers doc nums i k = Ok tt <-> forall j, (i <= j < i + k)%nat -> exists l a b x y info n,
    nums = YList l /\ nth_error l (j - 1) = Some a /\ nth_error l j = Some b /\ ynum a x /\ ynum b y /\ x < y /\
    at_key doc "joint_info" info /\ size info n /\ y < INR n.
Proof.
  revert i. induction k as [|k IH]; intros i Hi; cbn [check_numbers].
  - split; auto. intros _ j Hj. lia.
  - replace (Z.of_nat i - 1)%Z with (Z.of_nat (i - 1)) by lia. split.
    + intros H. apply bind_iff in H. destruct H as (a & Ea & H). apply bind_iff in H. destruct H as (b & Eb & H).
      apply bind_iff in H. destruct H as (g & Eg & H). destruct g; [discriminate|].
      apply bind_iff in H. destruct H as (info & Ei & H). apply bind_iff in H. destruct H as (n & En & H).
      rewrite Eb in H. cbn [bind] in H. apply bind_iff in H. destruct H as (g & Eg' & H). destruct g; [discriminate|].
      apply ge_false in Eg'. destruct Eg' as [(y & ny & Yb & Yn & L)|(s & t & _ & X)]; [|discriminate].
      apply ge_false in Eg. destruct Eg as [(x & y' & Ya & Yb' & L')|(s & t & -> & ->)]; [|inversion Yb].
      rewrite (ynum_fun _ _ _ Yb' Yb) in L'. clear Yb' y'.
      destruct (item_ynum _ _ _ _ Ea Ya) as (l & -> & Na). apply item_list in Eb.
      apply key_iff in Ei. apply len_iff in En.
      assert (Hn : ny = INR n). { inversion Yn. subst. rewrite INR_IZR_INZ. reflexivity. } subst ny.
      pose proof (proj1 (IH (S i) ltac:(lia)) H) as H'. clear H. rename H' into H.
      intros j Hj. destruct (Nat.eq_dec j i) as [->|Ne]; [|apply H; lia].
      exists l, a, b, x, y, info, n. tauto.
    + intros H. destruct (H i ltac:(lia)) as (l & a & b & x & y & info & n & -> & Na & Nb & Ya & Yb & L & Ki & Sn & Ln).
      rewrite (proj2 (item_list l (i - 1) a) Na), (proj2 (item_list l i b) Nb). cbn [bind].
      rewrite (ge_num _ _ _ _ Ya Yb L). cbn [bind].
      rewrite (proj2 (key_iff _ _ _) Ki). cbn [bind]. rewrite (proj2 (len_iff _ _) Sn). cbn [bind].
      rewrite (ge_num b (YInt (Z.of_nat n)) y (IZR (Z.of_nat n))); [|assumption|constructor|rewrite <- INR_IZR_INZ; assumption].
      cbn [bind]. apply (IH (S i)); [lia|]. intros j Hj. apply H. lia.
Qed.
Lemma check_numbers_checked doc nums n : check_numbers doc nums 1 (n - 1) = Ok tt <-> checked doc nums n.
Proof.
  rewrite check_numbers_iff by lia. unfold checked. split; intros H j Hj; apply H; lia.
Qed.
(* ---- joint entries ---- *)
Definition entry_says (v : yv) (j : jtype * (R * R * R * R) * string) : Prop :=
  let '(ty, (lo, up, ve, ac), n) := j in says_joint v ty lo up ve ac n.
Lemma load_entry_iff doc i ty lo up ve ac name :
  load_entry parse doc i = Ok (Je (jcode ty) (Fin lo) (Fin up) (Fin ve) (Fin ac) name) <->
  exists l v, joint_info doc l /\ nth_error l i = Some v /\ says_joint v ty lo up ve ac name.
Proof.
  unfold load_entry, SpecRR.says_joint, joint_info. split.
  - intros H. apply bind_iff in H. destruct H as (infos & Ki & H). apply bind_iff in H. destruct H as (j & Ej & H).
    apply bind_iff in H. destruct H as (t & Kt & H). apply bind_iff in H. destruct H as (tz & Et & H).
    apply bind_iff in H. destruct H as (lims & Kl & H). destruct (is_null lims) eqn:NL; [discriminate|].
    repeat (apply bind_iff in H; destruct H as (? & ? & H)). injection H as -> -> -> -> -> ->.
    apply key_iff in Ki. apply key_iff in Kt. apply key_iff in Kl.
    assert (EL : exists l, infos = YList l).
    { destruct Kt as (m & -> & _). destruct infos; try discriminate; eauto. simpl in Ej. destruct (py_index _ _); discriminate. }
    destruct EL as (l & ->). apply item_list in Ej. exists l, j. split; auto. split; auto.
    split; [|split].
    + destruct t as [| | |t| |]; try discriminate. exists t. split; auto.
      destruct (String.eqb_spec t "revolute"); [left|right].
      { injection Et as Et. destruct ty; try discriminate. auto. }
      destruct (String.eqb_spec t "prismatic"); [|discriminate]. injection Et as Et. destruct ty; try discriminate. auto.
    + exists lims. split; auto. repeat split; apply key_number; eauto.
    + match goal with K : key j "joint_identifier" = Ok ?i, N : _ = Ok name |- _ => exists i; apply key_iff in K; split; auto; destruct (is_null i) eqn:NI; rename N into HN end.
      * left. apply is_null_iff in NI. injection HN as <-. auto.
      * right. apply is_null_false in NI. split; auto. apply name_iff; exact HN.
  - intros (l & v & Ki & Ej & (t & Kt & Ht) & (lims & Kl & L1 & L2 & L3 & L4) & (id & Kid & Hid)).
    rewrite (proj2 (key_iff _ _ _) Ki). cbn [bind]. rewrite (proj2 (item_list _ _ _) Ej). cbn [bind].
    rewrite (proj2 (key_iff _ _ _) Kt). cbn [bind].
    assert (Et : (if String.eqb t "revolute" then Ok 0%Z else if String.eqb t "prismatic" then Ok 1%Z else Err ValueError) = Ok (jcode ty)).
    { destruct Ht as [[-> ->]|[-> ->]]; reflexivity. }
    rewrite Et. cbn [bind]. rewrite (proj2 (key_iff _ _ _) Kl). cbn [bind].
    assert (NL : is_null lims = false). { apply is_null_false. destruct L1 as (w & (m & -> & _) & _). discriminate. }
    rewrite NL.
    apply key_number in L1. apply key_number in L2. apply key_number in L3. apply key_number in L4.
    destruct L1 as (? & -> & L1), L2 as (? & -> & L2), L3 as (? & -> & L3), L4 as (? & -> & L4). cbn [bind].
    rewrite L1. cbn [bind]. rewrite L2. cbn [bind]. rewrite L3. cbn [bind]. rewrite L4. cbn [bind].
    rewrite (proj2 (key_iff _ _ _) Kid). cbn [bind].
    destruct Hid as [[-> ->]|[N Hid]]; [reflexivity|]. apply is_null_false in N. rewrite N.
    apply name_iff in Hid. rewrite Hid. reflexivity.
Qed.
Lemma load_entry_type doc i j : load_entry parse doc i = Ok j -> exists ty, je_type j = jcode ty.
Proof.
  unfold load_entry. intros H. do 3 (apply bind_iff in H; destruct H as (? & ? & H)).
  apply bind_iff in H. destruct H as (tz & Et & H).
  apply bind_iff in H. destruct H as (? & ? & H). destruct (is_null _); [discriminate|].
  repeat (apply bind_iff in H; destruct H as (? & ? & H)). injection H as <-. cbn [je_type].
  match type of Et with match ?x with _ => _ end = _ => destruct x as [| | |s| |]; try discriminate end.
  destruct (String.eqb s "revolute"); [injection Et as <-; exists Rotary; reflexivity|].
  destruct (String.eqb s "prismatic"); [injection Et as <-; exists Prismatic; reflexivity|discriminate].
Qed.
Lemma all_fin_iff {A} (l : list (flt A)) xs : all_fin l = Some xs <-> l = map Fin xs.
Proof.
  revert xs. induction l as [|[a|] l IH]; intros xs; simpl.
  - split; [intros H; injection H as <-; reflexivity|]. destruct xs; [reflexivity|discriminate].
  - destruct (all_fin l) as [r|] eqn:E.
    + split; [intros H; injection H as <-; simpl; f_equal; apply IH; reflexivity|].
      destruct xs as [|x xs]; try discriminate. simpl. intros H. injection H as -> ->. f_equal. f_equal. 
      assert (K : Some r = Some xs) by (apply IH; reflexivity). congruence.
    + split; [discriminate|]. destruct xs as [|x xs]; try discriminate. simpl. intros H. injection H as -> ->.
      assert (K : None = Some xs) by (apply IH; reflexivity). discriminate.
  - split; [discriminate|]. destruct xs; discriminate.
Qed.
Lemma opt_fin_iff {A} (x : option (flt A)) o : opt_fin x = Some o <-> x = option_map Fin o.
Proof. destruct x as [[a|]|], o; simpl; split; try discriminate; try congruence. Qed.
(** the columns H and P *)
Lemma columns_iff v n l : len_of v = Ok n ->
  (map_out (fun i => let* w := item v (Z.of_nat i) in to_vec3 w) (seq 0 n) = Ok (map Fin l) <->
   exists hs, (v = YList hs \/ (size v 0 /\ hs = [])) /\ List.length hs = n /\ Forall2 says_vec hs l).
Proof.
  intros Ln. rewrite map_out_Forall2.
  destruct n as [|n].
  - cbn [seq]. apply len_iff in Ln. split.
    + intros H. destruct l; [|inversion H]. exists []. auto.
    + intros (hs & _ & L & F). destruct hs; [|discriminate]. inversion F; subst. constructor.
  - split.
    + intros H.
      assert (EL : exists hs, v = YList hs).
      { destruct v; try discriminate; eauto.
        - cbn [seq] in H. destruct l as [|x l]; inversion H; subst. apply bind_iff in H3. destruct H3 as (w & E & F).
          simpl in E. destruct (py_index _ _); try discriminate. injection E as <-. cbn [ModelRR.to_vec3 key bind] in F. discriminate.
        - cbn [seq] in H. destruct l as [|x l]; inversion H; subst. apply bind_iff in H3. destruct H3 as (w & E & F). discriminate. }
      destruct EL as (hs & ->). cbn [len_of] in Ln. injection Ln as Ln. exists hs. split; auto. split; auto.
      rewrite <- Ln in H. clear n Ln.
      assert (G : forall k hs' l, (forall i, nth_error hs' i = nth_error hs (k + i)) ->
        Forall2 (fun i y => (let* w := item (YList hs) (Z.of_nat i) in to_vec3 w) = Ok y) (seq k (List.length hs')) (map Fin l) ->
        Forall2 says_vec hs' l).
      { intros k hs'. revert k. induction hs' as [|h hs' IH]; intros k l0 N F.
        - destruct l0; [constructor|inversion F].
        - cbn [List.length seq] in F. destruct l0 as [|x l0]; inversion F; subst. constructor.
          + apply bind_iff in H3. destruct H3 as (w & E & T). apply item_list in E.
            specialize (N 0%nat). rewrite Nat.add_0_r in N. cbn [nth_error] in N. rewrite <- N in E. injection E as <-.
            apply to_vec3_iff; auto.
          + apply (IH (S k)); auto. intros i. specialize (N (S i)). cbn [nth_error] in N. rewrite N. f_equal. lia. }
      apply (G 0%nat); auto.
    + intros (hs & [->|[Sz ->]] & L & F); [|discriminate]. rewrite <- L. clear n Ln L.
      assert (G : forall k hs' l, (forall i, nth_error hs' i = nth_error hs (k + i)) -> Forall2 says_vec hs' l ->
        Forall2 (fun i y => (let* w := item (YList hs) (Z.of_nat i) in to_vec3 w) = Ok y) (seq k (List.length hs')) (map Fin l)).
      { intros k hs' l0 N F0. revert k N. induction F0 as [|h x hs' l0 S0 F0 IH]; intros k N; cbn [List.length seq map]; constructor.
        - specialize (N 0%nat). rewrite Nat.add_0_r in N. cbn [nth_error] in N. symmetry in N.
          rewrite (proj2 (item_list _ _ _) N). cbn [bind]. apply to_vec3_iff; auto.
        - apply (IH (S k)); auto. intros i. specialize (N (S i)). cbn [nth_error] in N. rewrite N. f_equal. lia. }
      apply (G 0%nat); auto.
Qed.
(* ---- the joint entries together ---- *)
Fixpoint zip (tys : list jtype) (lo up ve ac : list R) (ns : list string) : list joint_entry :=
  match tys, lo, up, ve, ac, ns with
  | t :: tys, a :: lo, b :: up, c :: ve, d :: ac, n :: ns => Je (jcode t) (Fin a) (Fin b) (Fin c) (Fin d) n :: zip tys lo up ve ac ns
  | _, _, _, _, _, _ => []
  end.
Lemma zip_maps infos tys lo up ve ac ns : says_joints infos tys lo up ve ac ns ->
  let js := zip tys lo up ve ac ns in
  map je_type js = map jcode tys /\ map je_lower js = map Fin lo /\ map je_upper js = map Fin up /\
  map je_vel js = map Fin ve /\ map je_acc js = map Fin ac /\ map je_name js = ns.
Proof.
  induction 1; cbv zeta in *; cbn [zip map je_type je_lower je_upper je_vel je_acc je_name]; [tauto|].
  destruct IHsays_joints as (-> & -> & -> & -> & -> & ->). tauto.
Qed.
Lemma says_joints_len infos tys lo up ve ac ns : says_joints infos tys lo up ve ac ns ->
  List.length tys = List.length infos /\ List.length lo = List.length infos /\ List.length up = List.length infos /\
  List.length ve = List.length infos /\ List.length ac = List.length infos /\ List.length ns = List.length infos.
Proof. induction 1; cbn [List.length]; [tauto|]. lia. Qed.
Lemma joints_in doc l : joint_info doc l -> forall vs k tys lo up ve ac ns,
  (forall i, (i < List.length vs)%nat -> nth_error vs i = nth_error l (k + i)) -> says_joints vs tys lo up ve ac ns ->
  map_out (load_entry parse doc) (seq k (List.length vs)) = Ok (zip tys lo up ve ac ns).
Proof.
  intros J vs k tys lo up ve ac ns N Sj. revert k N. induction Sj as [|v vs ty tys a lo b up c ve d ac n ns Sv Sj IH]; intros k N.
  - reflexivity.
  - cbn [List.length seq map_out zip].
    assert (E : load_entry parse doc k = Ok (Je (jcode ty) (Fin a) (Fin b) (Fin c) (Fin d) n)).
    { apply load_entry_iff. exists l, v. split; auto. split; auto. specialize (N 0%nat ltac:(simpl; lia)).
      rewrite Nat.add_0_r in N. cbn [nth_error] in N. auto. }
    rewrite E. cbn [bind]. rewrite IH; [reflexivity|]. intros i Hi. specialize (N (S i) ltac:(simpl; lia)).
    cbn [nth_error] in N. rewrite N. f_equal. lia.
Qed.
Lemma joints_out doc : forall n k js tys lo up ve ac,
  map_out (load_entry parse doc) (seq k n) = Ok js ->
  map je_type js = map jcode tys -> map je_lower js = map Fin lo -> map je_upper js = map Fin up ->
  map je_vel js = map Fin ve -> map je_acc js = map Fin ac ->
  exists vs, List.length vs = n /\ (forall i, (i < n)%nat -> exists l, joint_info doc l /\ nth_error vs i = nth_error l (k + i)) /\
    says_joints vs tys lo up ve ac (map je_name js).
Proof.
  induction n as [|n IH]; intros k js tys lo up ve ac E T1 T2 T3 T4 T5.
  - injection E as <-. destruct tys, lo, up, ve, ac; try discriminate. exists []. split; auto. split; [intros; lia|constructor].
  - cbn [seq map_out] in E. apply bind_iff in E. destruct E as (j & Ej & E). apply bind_iff in E. destruct E as (js' & E & X).
    injection X as <-. destruct j as [jt jl ju jv ja jn].
    cbn [map je_type je_lower je_upper je_vel je_acc je_name] in *.
    destruct tys as [|ty tys], lo as [|a lo], up as [|b up], ve as [|c ve], ac as [|d ac]; try discriminate.
    cbn [map] in *. injection T1 as -> T1. injection T2 as -> T2. injection T3 as -> T3. injection T4 as -> T4. injection T5 as -> T5.
    destruct (IH (S k) js' tys lo up ve ac E T1 T2 T3 T4 T5) as (vs & L & N & Sj).
    apply load_entry_iff in Ej. destruct Ej as (l & v & J & Nv & Sv).
    exists (v :: vs). split; [simpl; auto|]. split; [|constructor; auto].
    intros [|i] Hi.
    + exists l. rewrite Nat.add_0_r. cbn [nth_error]. auto.
    + destruct (N i ltac:(lia)) as (l' & J' & N'). exists l'. split; auto. cbn [nth_error]. rewrite N'. f_equal. lia.
Qed.
Lemma nth_firstn {A} (l : list A) n i : (i < n)%nat -> nth_error (firstn n l) i = nth_error l i.
Proof. revert n i. induction l; intros [|n] [|i] H; simpl; auto; try lia. apply IHl. lia. Qed.
Lemma nth_ext_error {A} (l l' : list A) : (forall i, nth_error l i = nth_error l' i) -> l = l'.
Proof.
  revert l'. induction l as [|a l IH]; intros [|b l'] H; auto; try (specialize (H 0%nat); discriminate).
  f_equal. specialize (H 0%nat); simpl in H; congruence. apply IH. intros i. exact (H (S i)).
Qed.
Lemma infos_first doc n vs : List.length vs = n ->
  (forall i, (i < n)%nat -> exists l, joint_info doc l /\ nth_error vs i = nth_error l (0 + i)) -> first_infos doc n vs.
Proof.
  intros L N. split; auto. destruct n as [|n]; auto. right. destruct (N 0%nat ltac:(lia)) as (l & J & _).
  exists l. split; auto. apply nth_ext_error. intros i. destruct (lt_dec i (S n)) as [H|H].
  - rewrite nth_firstn by auto. destruct (N i H) as (l' & J' & ->). unfold joint_info in *.
    pose proof (at_key_fun _ _ _ _ J J') as X. injection X as <-. reflexivity.
  - rewrite (proj2 (nth_error_None vs i)) by lia. apply nth_error_None. pose proof (firstn_le_length (S n) l). lia.
Qed.

(* ---- the constructor ---- *)
Definition near_unit (h : vec3) : Prop := Rabs (norm h - 1) <= 1/100000000 + 1/100000.
Lemma col3_norm h : sqrt (fold_right (fun x s => x * x + s) 0 (col3 h)) = norm h.
Proof. destruct h as [a b c]. unfold norm, norm2, dot, col3. cbn [vx vy vz fold_right]. f_equal. ring. Qed.
Lemma col3_rect l : rectangular (Cols 3 (map col3 l)).
Proof. unfold rectangular. simpl. apply Forall_map. apply Forall_forall. reflexivity. Qed.
Lemma col3_inj a b : map (fun v => [vx v; vy v; vz v]) a = map col3 b -> a = b.
Proof.
  revert b. induction a as [|x a IH]; intros [|y b] H; try discriminate; auto. cbn [map] in H.
  assert (H1 : [vx x; vy x; vz x] = col3 y) by congruence. assert (H2 : map (fun v => [vx v; vy v; vz v]) a = map col3 b) by congruence.
  f_equal; auto. destruct x as [x1 x2 x3], y as [y1 y2 y3]. unfold col3 in H1. cbn [vx vy vz] in H1. congruence.
Qed.
Lemma jcode_inj1 a b : jcode a = jcode b -> a = b.
Proof. destruct a, b; simpl; congruence. Qed.
Lemma jcodes_inj a b : map jcode a = map jcode b -> a = b.
Proof.
  revert b. induction a as [|x a IH]; intros [|y b] H; try discriminate; auto. cbn [map] in H.
  injection H as H1 H2. f_equal; auto. apply jcode_inj1; auto.
Qed.
Definition full_args H P ty lo up ve ac tool ns root tip fl ba : robot_args :=
  Ra (Cols 3 (map col3 H)) (Cols 3 (map col3 P)) (map jcode ty) (Some lo) (Some up) (Some ve) (Some ac) None
     (option_map tR tool) (option_map tp tool) (Some ns) root tip fl ba.
Lemma Robot_init_full H P ty lo up ve ac tool ns root tip fl ba r :
  Robot_init (full_args H P ty lo up ve ac tool ns root tip fl ba) = Ok r <->
  (List.length H = List.length ty /\ List.length P = S (List.length ty) /\ List.length lo = List.length ty /\
   List.length up = List.length ty /\ List.length ve = List.length ty /\ List.length ac = List.length ty /\
   List.length ns = List.length ty /\ Forall near_unit H) /\
  r = Rb H P ty (Some lo) (Some up) (Some ve) (Some ac) None (option_map tR tool) (option_map tp tool) (Some ns) root tip fl ba.
Proof.
  set (a := full_args _ _ _ _ _ _ _ _ _ _ _ _ _).
  assert (V : valid_args a <-> (List.length H = List.length ty /\ List.length P = S (List.length ty) /\ List.length lo = List.length ty /\
   List.length up = List.length ty /\ List.length ve = List.length ty /\ List.length ac = List.length ty /\
   List.length ns = List.length ty /\ Forall near_unit H)).
  { split.
    - intros [V1 V2 V3 V4 V5 V6 V7 V8 V9 V10 V11]. unfold a, full_args in *.
      cbn [aH aP atype alower aupper avel aacc aM anames columns nrows len_if] in *. rewrite !map_length in *.
      destruct (V7 lo up eq_refl eq_refl) as [? ?]. repeat (split; auto).
      rewrite Forall_map in V6. revert V6. apply Forall_impl. intros h. rewrite col3_norm. auto.
    - intros (L1 & L2 & L3 & L4 & L5 & L6 & L7 & F). unfold a, full_args.
      constructor; cbn [aH aP atype alower aupper avel aacc aM anames columns nrows len_if]; rewrite ?map_length; auto.
      + rewrite Forall_map. apply Forall_forall. intros [] _; simpl; lia.
      + rewrite Forall_map. revert F. apply Forall_impl. intros h. rewrite col3_norm. auto.
      + intros l u El Eu. injection El as <-. injection Eu as <-. auto. }
  assert (Stored : forall r, Robot_init a = Ok r -> r = Rb H P ty (Some lo) (Some up) (Some ve) (Some ac) None (option_map tR tool) (option_map tp tool) (Some ns) root tip fl ba).
  { intros r' E. destruct (Robot_init_stored a r' E) as (S1 & S2 & S3 & S4 & S5 & S6 & S7 & S8 & S9 & S10 & S11 & S12 & S13).
    unfold a, full_args in S1, S2, S3, S4, S5, S6, S7, S8, S9, S10, S11, S12, S13.
    cbn [aH aP atype alower aupper avel aacc aM anames aroot atip aflange abase aRtool aptool columns] in *.
    apply col3_inj in S1. apply col3_inj in S2. apply jcodes_inj in S3. destruct r'. cbn in *. subst.
    injection S4 as -> ->. destruct tool; cbn [option_map] in *; injection S5 as -> ->; reflexivity. }
  destruct (Robot_init_cases a) as [[Va (r0 & E)]|[Nv E]]; try apply col3_rect.
  - rewrite E. split.
    + intros X. injection X as <-. split; [apply V; auto|]. apply Stored; auto.
    + intros [_ ->]. f_equal. apply Stored; auto.
  - rewrite E. split; [discriminate|]. intros [X _]. destruct Nv. apply V; auto.
Qed.

(* ---- names, tool and base ---- *)
Lemma first_entry_iff ids id : (exists k, len_of ids = Ok k /\ k <> 0%nat) -> (item ids 0 = Ok id <-> first_entry ids id).
Proof.
  intros (k & L & K). destruct ids; try discriminate.
  - cbn [len_of] in L. injection L as <-. destruct s as [|c s]; [destruct (K eq_refl)|].
    cbn [item]. change 0%Z with (Z.of_nat 0). rewrite py_index_nat. cbn [String.length Nat.ltb Nat.leb].
    cbn [String.substring]. rewrite (substring_0 s). split; [intros H; injection H as <-; constructor|intros H; inversion H; reflexivity].
  - cbn [len_of] in L. injection L as <-. destruct l as [|v l]; [destruct (K eq_refl)|].
    change 0%Z with (Z.of_nat 0). rewrite item_list. cbn [nth_error]. split; [intros H; injection H as ->; constructor|intros H; inversion H; reflexivity].
  - cbn [item]. split; [discriminate|intros H; inversion H].
Qed.
Definition load_root (chain : yv) : out (option string) :=
  let* links := get_opt chain "link_identifiers" in
  let has_links := match chain with YMap m => match find_key "link_identifiers" m with Some _ => true | None => false end | _ => false end in
  if has_links then
    let* k := len_of links in
    if Nat.eqb k 0 then Ok None else
    let* id := item links 0 in
    if is_null id then Ok None else let* s := identifier_name id in Ok (Some s)
  else Ok None.
Lemma load_root_iff chain o : (exists m, chain = YMap m) -> load_root chain = Ok o <-> says_root chain o.
Proof.
  intros (m & ->). unfold load_root, says_root, at_key, no_key. cbn [get_opt].
  destruct (find_key "link_identifiers" m) as [ids|] eqn:E; cbn [bind]; split.
  - intros H. right. exists ids. split; [eauto|]. apply bind_iff in H. destruct H as (k & L & H).
    destruct (Nat.eqb_spec k 0) as [->|K].
    + left. apply len_iff in L. injection H as <-. auto.
    + right. apply bind_iff in H. destruct H as (id & I & H). exists id. split.
      apply first_entry_iff; eauto. apply name_opt_iff; auto.
  - intros [[(m' & X & N) _]|(ids' & (m' & X & N) & H)]; injection X as <-; [congruence|].
    assert (ids' = ids) by congruence. subst ids'.
    destruct H as [[Sz ->]|(id & F & N')].
    + apply len_iff in Sz. rewrite Sz. reflexivity.
    + assert (exists k, len_of ids = Ok k /\ k <> 0%nat) as (k & L & K).
      { inversion F; subst; cbn [len_of]; eexists; (split; [reflexivity|]); simpl; discriminate. }
      rewrite L. cbn [bind]. destruct (Nat.eqb_spec k 0); [congruence|].
      apply first_entry_iff in F; eauto. rewrite F. cbn [bind]. apply name_opt_iff; auto.
  - intros H. injection H as <-. left. eauto.
  - intros [[_ ->]|(ids & (m' & X & N) & _)]; [reflexivity|]. injection X as <-. congruence.
Qed.
Definition load_tool (chain : yv) : out (option (flt transform) * option string) :=
  let* fid := key chain "flange_identifier" in
  let* tip := if is_null fid then Ok None else let* s := identifier_name fid in Ok (Some s) in
  let* cur := get_opt chain "current_tool" in
  if is_null cur then Ok (None, tip) else
  let* tcp := get_opt cur "tcp" in
  if is_null tcp then Ok (None, tip) else
  let* T := to_transform tcp in
  let* info := get_opt cur "device_info" in
  if is_null info then Ok (Some T, tip) else
  let* dev := key info "device" in let* s := identifier_name dev in
  Ok (Some T, Some s).
Lemma maybe_null v k : maybe v k YNull -> is_null v = false.
Proof. intros [(m & -> & _)|[(m & -> & _) _]]; reflexivity. Qed.
Lemma maybe_map v k w : maybe v k w -> is_null v = false.
Proof. intros [(m & -> & _)|[(m & -> & _) _]]; reflexivity. Qed.
Lemma at_key_map v k w : at_key v k w -> is_null v = false.
Proof. intros (m & -> & _). reflexivity. Qed.
Lemma says_transform_map v T : says_transform v T -> is_null v = false.
Proof. intros (? & ? & ? & _ & _ & _ & [[A _]|[_ [A _]]]); eapply at_key_map; eauto. Qed.
Lemma load_tool_iff chain tool tip : load_tool chain = Ok (option_map Fin tool, tip) <->
  SpecRR.says_tool parse chain (option_map tR tool) (option_map tp tool) tip /\
  (forall T, tool = Some T -> t_parent T = None /\ t_child T = None).
Proof.
  unfold load_tool, says_tool. split.
  - intros H. apply bind_iff in H. destruct H as (fid & Kf & H). apply bind_iff in H. destruct H as (ftip & Ff & H).
    apply bind_iff in H. destruct H as (cur & Kc & H). apply key_iff in Kf. apply name_opt_iff in Ff. apply get_opt_iff in Kc.
    assert (G : forall P Q : Prop, P -> Q -> (exists fid ftip cur, at_key chain "flange_identifier" fid /\ says_name_opt fid ftip /\ maybe chain "current_tool" cur /\ P) /\ Q) by (intros; split; eauto 8).
    destruct (is_null cur) eqn:Nc.
    { apply is_null_iff in Nc. destruct tool; [discriminate|]. injection H as <-.
      split; [exists fid, ftip, cur; repeat (split; auto)|discriminate]. }
    apply bind_iff in H. destruct H as (tcp & Kt & H). apply get_opt_iff in Kt.
    destruct (is_null tcp) eqn:Nt.
    { apply is_null_iff in Nt. destruct tool; [discriminate|]. injection H as <-.
      split; [exists fid, ftip, cur; repeat (split; auto); right; exists tcp; auto 6|discriminate]. }
    apply bind_iff in H. destruct H as (T & ET & H). apply bind_iff in H. destruct H as (info & Ki & H). apply get_opt_iff in Ki.
    destruct (is_null info) eqn:Ni.
    { apply is_null_iff in Ni. destruct tool as [T'|]; [|discriminate]. cbn [option_map] in *. injection H as -> <-.
      apply to_transform_iff in ET. split.
      - exists fid, ftip, cur; repeat (split; auto). right. exists tcp. split; auto. right. exists T', info.
        apply is_null_false in Nt. repeat (split; auto).
      - intros T X. injection X as <-. destruct ET as (? & ? & ? & _ & _ & -> & _). auto. }
    apply bind_iff in H. destruct H as (dev & Kd & H). apply bind_iff in H. destruct H as (n & En & H).
    destruct tool as [T'|]; [|discriminate]. cbn [option_map] in *. injection H as -> <-.
    apply to_transform_iff in ET. apply key_iff in Kd. apply name_iff in En. split.
    + exists fid, ftip, cur; repeat (split; auto). right. exists tcp. split; auto. right. exists T', info.
      apply is_null_false in Nt. repeat (split; auto). right. eauto.
    + intros T X. injection X as <-. destruct ET as (? & ? & ? & _ & _ & -> & _). auto.
  - intros ((fid & ftip & cur & Kf & Ff & Kc & H) & FN). apply key_iff in Kf. apply name_opt_iff in Ff. apply get_opt_iff in Kc.
    rewrite Kf. cbn [bind]. rewrite Ff. cbn [bind]. rewrite Kc. cbn [bind].
    destruct H as [(-> & Rt & _ & ->)|(tcp & Kt & H)].
    { destruct tool; [discriminate|]. reflexivity. }
    rewrite (maybe_map _ _ _ Kt). apply get_opt_iff in Kt. rewrite Kt. cbn [bind].
    destruct H as [(-> & Rt & _ & ->)|(T & info & Nt & ST & Rt & Pt & Ki & H)].
    { destruct tool; [discriminate|]. reflexivity. }
    destruct tool as [T'|]; [|discriminate]. cbn [option_map] in *. injection Rt as Rt. injection Pt as Pt.
    assert (T' = T).
    { destruct (FN T' eq_refl) as [F1 F2]. destruct ST as (? & ? & ? & _ & _ & E & _). rewrite E in Rt, Pt |- *. destruct T'. cbn in *. subst. reflexivity. }
    subst T'. rewrite (says_transform_map _ _ ST). apply to_transform_iff in ST. rewrite ST. cbn [bind].
    apply get_opt_iff in Ki. rewrite Ki. cbn [bind].
    destruct H as [(-> & ->)|(dev & n & Kd & En & ->)]; [reflexivity|].
    rewrite (at_key_map _ _ _ Kd). apply key_iff in Kd. rewrite Kd. cbn [bind]. apply name_iff in En. rewrite En. reflexivity.
Qed.
Definition load_base (doc : yv) : out (option (flt transform)) :=
  let* rdi := get_opt doc "device_info" in
  if is_null rdi then Ok None else
  let* op := get_opt rdi "device_origin_pose" in
  if is_null op then Ok None else
  let* pose := key op "pose" in let* T := to_transform pose in Ok (Some T).
Lemma load_base_iff doc o : load_base doc = Ok (option_map Fin o) <-> SpecRR.says_base parse doc o.
Proof.
  unfold load_base, says_base. split.
  - intros H. apply bind_iff in H. destruct H as (info & Ki & H). apply get_opt_iff in Ki. exists info. split; auto.
    destruct (is_null info) eqn:Ni. { apply is_null_iff in Ni. destruct o; [discriminate|]. auto. }
    right. apply bind_iff in H. destruct H as (op & Ko & H). apply get_opt_iff in Ko. exists op. split; auto.
    destruct (is_null op) eqn:No. { apply is_null_iff in No. destruct o; [discriminate|]. auto. }
    right. apply bind_iff in H. destruct H as (pose & Kp & H). apply bind_iff in H. destruct H as (T & ET & H).
    destruct o as [T'|]; [|discriminate]. injection H as ->. apply key_iff in Kp. apply to_transform_iff in ET. eauto.
  - intros (info & Ki & H). apply get_opt_iff in Ki. rewrite Ki. cbn [bind]. destruct H as [(-> & ->)|(op & Ko & H)]; [reflexivity|].
    rewrite (maybe_map _ _ _ Ko). apply get_opt_iff in Ko. rewrite Ko. cbn [bind]. destruct H as [(-> & ->)|(pose & T & Kp & ST & ->)]; [reflexivity|].
    rewrite (at_key_map _ _ _ Kp). apply key_iff in Kp. rewrite Kp. cbn [bind]. apply to_transform_iff in ST. rewrite ST. reflexivity.
Qed.

(* ---- the loader ---- *)
Lemma picks_iff doc c chain : (exists m, chain = YMap m) ->
  picks doc c chain <-> exists chains k, key doc "chains" = Ok chains /\ check_list chains None = Ok tt /\ len_of chains = Ok k /\
    (Z.of_nat k <=? c)%Z = false /\ item chains c = Ok chain.
Proof.
  intros (m & ->). unfold picks. split.
  - intros (cs & k & K & N & C). exists (YList cs), (List.length cs). apply key_iff in K.
    assert (L : (k < List.length cs)%nat) by (apply nth_error_Some; congruence).
    split; auto. split; [reflexivity|]. split; [reflexivity|].
    split; [apply Z.leb_gt; lia|]. cbn [item]. unfold py_index.
    destruct C as [<-|[C1 C2]].
    + rewrite (proj2 (Z.ltb_ge (Z.of_nat k) 0)) by lia. rewrite (proj2 (Z.leb_le _ _)) by lia. rewrite (proj2 (Z.ltb_lt _ _)) by lia.
      cbn [andb]. rewrite Nat2Z.id. unfold index. rewrite N. reflexivity.
    + rewrite (proj2 (Z.ltb_lt c 0)) by lia. rewrite <- C2. rewrite (proj2 (Z.leb_le _ _)) by lia. rewrite (proj2 (Z.ltb_lt _ _)) by lia.
      cbn [andb]. rewrite Nat2Z.id. unfold index. rewrite N. reflexivity.
  - intros (chains & k & K & _ & L & C & I). apply key_iff in K. apply Z.leb_gt in C.
    destruct chains as [| | |s|cs|]; try discriminate.
    { cbn [item] in I. destruct (py_index _ _); discriminate. }
    cbn [len_of] in L. injection L as <-. cbn [item] in I. destruct (py_index _ _) as [j|] eqn:P; [|discriminate].
    unfold index in I. destruct (nth_error cs j) as [w|] eqn:N; [|discriminate]. injection I as ->.
    exists cs, j. split; auto. split; auto. unfold py_index in P.
    destruct (Z.ltb_spec c 0).
    + destruct (_ && _)%bool eqn:B; [|discriminate]. injection P as <-. apply andb_true_iff in B. destruct B as [B _].
      apply Z.leb_le in B. right. rewrite Z2Nat.id; auto.
    + destruct (_ && _)%bool eqn:B; [|discriminate]. injection P as <-. left. rewrite Z2Nat.id; auto.
Qed.
Lemma check_list_iff v n : check_list v (Some n) = Ok tt <-> len_of v = Ok n.
Proof.
  unfold check_list. destruct v; cbn [is_null len_of bind]; try (split; discriminate).
  all: destruct (Nat.eqb_spec (String.length s) n) || destruct (Nat.eqb_spec (List.length l) n) || destruct (Nat.eqb_spec (List.length m) n);
    split; congruence.
Qed.
Lemma Forall2_len {A B} (P : A -> B -> Prop) l l' : Forall2 P l l' -> List.length l = List.length l'.
Proof. induction 1; simpl; auto. Qed.
Lemma near_unit_shape H : Forall (fun h => Rabs (norm h - 1) <= 1/100000000 + 1/100000) H <-> Forall near_unit H.
Proof. reflexivity. Qed.
Theorem load_iff doc c r : load_robot_info parse doc c = Ok (Fin r) <->
  exists chain n infos, picks doc c chain /\ accepted_numbers doc chain n /\ first_infos doc n infos /\
    SpecRR.says_robot parse doc chain infos r.
Proof.
  unfold load_robot_info. split.
  - intros H. apply bind_iff in H. destruct H as (chains & Kc & H). apply bind_iff in H. destruct H as ([] & Ck & H).
    apply bind_iff in H. destruct H as (nc & Lc & H). destruct (_ <=? _)%Z eqn:Cc; [discriminate|].
    apply bind_iff in H. destruct H as (chain & Ic & H). apply bind_iff in H. destruct H as (nums & Kn & H).
    apply bind_iff in H. destruct H as (n & Ln & H). apply bind_iff in H. destruct H as ([] & Cn & H).
    apply bind_iff in H. destruct H as (Hv & KH & H). apply bind_iff in H. destruct H as ([] & LH & H).
    apply bind_iff in H. destruct H as (Pv & KP & H). apply bind_iff in H. destruct H as ([] & LP & H).
    apply bind_iff in H. destruct H as (H0 & EH & H). apply bind_iff in H. destruct H as (P0 & EP & H).
    apply bind_iff in H. destruct H as (joints & EJ & H). apply bind_iff in H. destruct H as (links & Klk & H).
    apply bind_iff in H. destruct H as (root & Er & H). apply bind_iff in H. destruct H as (fid & Kfi & H).
    apply bind_iff in H. destruct H as (ftip & Eft & H). apply bind_iff in H. destruct H as (fp & Kfp & H).
    apply bind_iff in H. destruct H as (flange & Efl & H). apply bind_iff in H. destruct H as (cur & Kcu & H).
    apply bind_iff in H. destruct H as (tt' & Ett & H). apply bind_iff in H. destruct H as (rdi & Krd & H).
    apply bind_iff in H. destruct H as (base & Eba & H).
    assert (LR : load_root chain = Ok root) by (unfold load_root; rewrite Klk; exact Er).
    assert (LT : load_tool chain = Ok tt') by (unfold load_tool; rewrite Kfi; cbn [bind]; rewrite Eft; cbn [bind]; rewrite Kcu; exact Ett).
    assert (LB : load_base doc = Ok base) by (unfold load_base; rewrite Krd; exact Eba).
    clear Klk Er Kfi Eft Kcu Ett Krd Eba links fid ftip cur rdi.
    assert (MC : exists m, chain = YMap m) by (apply key_iff in Kn; destruct Kn as (m & -> & _); eauto).
    destruct (all_fin H0) as [HH|] eqn:AH; [|discriminate].
    destruct (all_fin P0) as [PP|] eqn:AP; [|apply bind_iff in H; destruct H as (? & _ & ?); discriminate].
    destruct (all_fin (map je_lower joints)) as [lo|] eqn:Alo; [|apply bind_iff in H; destruct H as (? & _ & ?); discriminate].
    destruct (all_fin (map je_upper joints)) as [up|] eqn:Aup; [|apply bind_iff in H; destruct H as (? & _ & ?); discriminate].
    destruct (all_fin (map je_vel joints)) as [ve|] eqn:Ave; [|apply bind_iff in H; destruct H as (? & _ & ?); discriminate].
    destruct (all_fin (map je_acc joints)) as [ac|] eqn:Aac; [|apply bind_iff in H; destruct H as (? & _ & ?); discriminate].
    destruct (opt_fin (fst tt')) as [tool|] eqn:At; [|apply bind_iff in H; destruct H as (? & _ & ?); discriminate].
    destruct flange as [fl|]; [|apply bind_iff in H; destruct H as (? & _ & ?); discriminate].
    destruct (opt_fin base) as [ba|] eqn:Ab; [|apply bind_iff in H; destruct H as (? & _ & ?); discriminate].
    apply bind_iff in H. destruct H as (r' & Ei & H). injection H as ->.
    apply all_fin_iff in AH, AP, Alo, Aup, Ave, Aac. subst H0 P0. apply opt_fin_iff in At, Ab. subst base.
    destruct tt' as [t1 tip]. cbn [fst snd] in *. subst t1.
    assert (TY : exists tys, map je_type joints = map jcode tys).
    { apply map_out_Forall2 in EJ. clear -EJ. induction EJ as [|i j l js E F (tys & IH)]; [exists []; reflexivity|].
      destruct (load_entry_type _ _ _ E) as (ty & T). exists (ty :: tys). cbn [map]. rewrite T, IH. reflexivity. }
    destruct TY as (tys & TY). rewrite TY in Ei.
    apply (Robot_init_full HH PP tys lo up ve ac tool) in Ei. destruct Ei as ((L1 & L2 & L3 & L4 & L5 & L6 & L7 & NU) & ->).
    destruct (joints_out doc n 0 joints tys lo up ve ac EJ TY Alo Aup Ave Aac) as (vs & Lv & Nv & Sj).
    exists chain, n, vs. split; [apply picks_iff; auto; exists chains, nc; auto|].
    split; [exists nums; split; [apply key_iff; auto|]; split; [apply len_iff; auto|apply check_numbers_checked; auto]|].
    split; [apply infos_first; auto|].
    apply check_list_iff in LH, LP.
    constructor; cbn [rH rP rtype rlower rupper rvel racc rM rRtool rptool rnames rroot rtip rflange rbase].
    + apply (proj1 (columns_iff Hv n HH LH)) in EH. destruct EH as (hs & A & B & F). exists Hv, hs. rewrite <- key_iff. auto.
    + apply (proj1 (columns_iff Pv (S n) PP LP)) in EP. destruct EP as (ps & [->|[Sz ->]] & B & F); [|discriminate]. exists ps. rewrite <- key_iff. auto.
    + exists lo, up, ve, ac, (map je_name joints). auto 8.
    + reflexivity.
    + apply load_root_iff; auto.
    + exists fp, fl. apply key_iff in Kfp. apply to_transform_iff in Efl. auto.
    + apply load_tool_iff in LT. apply LT.
    + apply load_base_iff in LB. exact LB.
    + auto.
    + exact NU.
  - intros (chain & n & infos & Pk & (nums & Kn & Sn & Cn) & Fi & [SH SP SJ SM SR SF ST SB (SL1 & SL2) SU]).
    assert (MC : exists m, chain = YMap m) by (destruct Kn as (m & -> & _); eauto).
    apply picks_iff in Pk; auto. destruct Pk as (chains & k & -> & Ck & Lk & Cc & Ic). cbn [bind].
    rewrite Ck. cbn [bind]. rewrite Lk. cbn [bind]. rewrite Cc, Ic. cbn [bind].
    apply key_iff in Kn. rewrite Kn. cbn [bind]. apply len_iff in Sn. rewrite Sn. cbn [bind].
    apply check_numbers_checked in Cn. rewrite Cn. cbn [bind].
    destruct SJ as (lo & up & ve & ac & ns & SJ & Elo & Eup & Eve & Eac & Ens).
    pose proof (says_joints_len _ _ _ _ _ _ _ SJ) as (J1 & J2 & J3 & J4 & J5 & J6).
    destruct Fi as (Li & Fi).
    destruct SH as (Hv & hs & KH & VH & FH). destruct SP as (ps & KP & FP).
    pose proof (Forall2_len _ _ _ FH) as LHs. pose proof (Forall2_len _ _ _ FP) as LPs.
    apply key_iff in KH, KP. rewrite KH. cbn [bind].
    assert (LHv : len_of Hv = Ok n).
    { destruct VH as [->|[Sz ->]]; [cbn [len_of]; f_equal; lia|]. apply len_iff in Sz. rewrite Sz. f_equal. cbn [List.length] in LHs. lia. }
    rewrite (proj2 (check_list_iff Hv n) LHv). cbn [bind]. rewrite KP. cbn [bind].
    assert (LPv : len_of (YList ps) = Ok (S n)) by (cbn [len_of]; f_equal; lia).
    rewrite (proj2 (check_list_iff _ _) LPv). cbn [bind].
    rewrite (proj2 (columns_iff Hv n (rH r) LHv)); [|exists hs; split; auto; split; auto; lia]. cbn [bind].
    rewrite (proj2 (columns_iff _ (S n) (rP r) LPv)); [|exists ps; split; auto; split; auto; lia]. cbn [bind].
    assert (EJ : map_out (load_entry parse doc) (seq 0 n) = Ok (zip (rtype r) lo up ve ac ns)).
    { rewrite <- Li. destruct Fi as [->|(l & Jl & <-)].
      - destruct infos; [|discriminate]. inversion SJ. reflexivity.
      - apply (joints_in doc l Jl); auto. intros i Hi. rewrite nth_firstn; auto. rewrite Li in Hi. auto. }
    rewrite EJ. cbn [bind].
    apply (load_root_iff chain (rroot r) MC) in SR. unfold load_root in SR. apply bind_iff in SR. destruct SR as (links & -> & SR).
    cbn [bind]. rewrite SR. cbn [bind].
    destruct SF as (fp & fl & Kfp & SF & Efl). apply key_iff in Kfp. apply to_transform_iff in SF.
    assert (TOOL : exists tool, rRtool r = option_map tR tool /\ rptool r = option_map tp tool /\ load_tool chain = Ok (option_map Fin tool, rtip r)).
    { pose proof ST as ST'. destruct ST' as (fid & ftip & cur & Kf & Ff & Kcu & [(-> & R0 & P0 & T0)|(tcp & Kt & [(-> & R0 & P0 & T0)|(T & info & Nt & STT & R0 & P0 & Ki & X)])]).
      - exists None. rewrite R0, P0. split; auto. split; auto. rewrite R0, P0 in ST. apply load_tool_iff. split; auto. discriminate.
      - exists None. rewrite R0, P0. split; auto. split; auto. rewrite R0, P0 in ST. apply load_tool_iff. split; auto. discriminate.
      - exists (Some T). rewrite R0, P0. split; auto. split; auto. rewrite R0, P0 in ST. apply load_tool_iff. split; auto.
        intros T' X'. injection X' as <-. destruct STT as (? & ? & ? & _ & _ & -> & _). auto. }
    destruct TOOL as (tool & R0 & P0 & LT). unfold load_tool in LT.
    apply bind_iff in LT. destruct LT as (fid & -> & LT). cbn [bind]. apply bind_iff in LT. destruct LT as (ftip & Eft & LT).
    rewrite Eft. cbn [bind]. rewrite Kfp. cbn [bind]. rewrite SF. cbn [bind].
    apply bind_iff in LT. destruct LT as (cur & -> & LT). cbn [bind]. rewrite LT. cbn [bind].
    apply load_base_iff in SB. unfold load_base in SB. apply bind_iff in SB. destruct SB as (rdi & -> & SB). cbn [bind]. rewrite SB. cbn [bind].
    rewrite (proj2 (all_fin_iff (map Fin (rH r)) (rH r)) eq_refl), (proj2 (all_fin_iff (map Fin (rP r)) (rP r)) eq_refl).
    destruct (zip_maps _ _ _ _ _ _ _ SJ) as (Z1 & Z2 & Z3 & Z4 & Z5 & Z6).
    rewrite Z1, Z2, Z3, Z4, Z5, Z6. rewrite !(proj2 (all_fin_iff _ _) eq_refl).
    cbn [fst snd]. rewrite !(proj2 (opt_fin_iff _ _) eq_refl).
    match goal with |- bind ?x _ = _ => assert (RI : x = Ok r) end.
    { apply (Robot_init_full (rH r) (rP r) (rtype r) lo up ve ac tool). split; [repeat split; auto; try lia|].
      destruct r. cbn in *. subst. reflexivity. }
    rewrite RI. reflexivity.
Qed.
End Load.
