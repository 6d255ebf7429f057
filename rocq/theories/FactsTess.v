(** Lemmas about scene graphs. *)
From Coq Require Import Reals ZArith Ascii String List Bool Lia Lra DecimalString DecimalNat FinFun.
From Verif Require Import LinAlg RealAux Py FactsReal FactsLinAlg SpecRot ModelRot ModelTransform ModelRobot SpecKin FactsKin.
From Verif Require Import ModelTess SpecTess.
Import ListNotations.
Open Scope R_scope.

(* ---------- names ---------- *)
Lemma str_nat_inj a b : str_nat a = str_nat b -> a = b.
Proof.
  unfold str_nat. intros E. apply (f_equal NilEmpty.uint_of_string) in E. rewrite !NilEmpty.usu in E.
  inversion E as [E']. apply (f_equal Nat.of_uint) in E'. rewrite !DecimalNat.Unsigned.of_to in E'. exact E'.
Qed.
Lemma append_inj_l (p a b : string) : (p ++ a = p ++ b)%string -> a = b.
Proof. induction p as [|c p IH]; simpl; intros E; auto. inversion E; auto. Qed.
Lemma append_assoc (a b c : string) : ((a ++ b) ++ c = a ++ (b ++ c))%string.
Proof. induction a as [|x a IH]; simpl; auto. rewrite IH. reflexivity. Qed.
Lemma link_name_inj a b : link_name a = link_name b -> a = b.
Proof. intros E. apply str_nat_inj, (append_inj_l "link_"), E. Qed.
Lemma link_names_nodup k s : NoDup (map link_name (seq s k)).
Proof.
  apply Injective_map_NoDup; [exact link_name_inj|apply seq_NoDup].
Qed.
Lemma link_names_eq n : map (fun i => "link_" ++ str_nat (i + 1))%string (seq 0 n) = map link_name (seq 1 n).
Proof. rewrite <- seq_shift, map_map. apply map_ext. intros i. unfold link_name. rewrite Nat.add_1_r. reflexivity. Qed.
Lemma joint_names_eq n : map (fun i => "joint_" ++ str_nat (i + 1))%string (seq 0 n) = map joint_name (seq 1 n).
Proof. rewrite <- seq_shift, map_map. apply map_ext. intros i. unfold joint_name. rewrite Nat.add_1_r. reflexivity. Qed.

Lemma mem_str_iff s l : mem_str s l = true <-> In s l.
Proof.
  unfold mem_str. rewrite existsb_exists. split.
  - intros (x & I & E). apply String.eqb_eq in E. congruence.
  - intros I. exists s. split; auto. apply String.eqb_refl.
Qed.
Lemma mem_str_false s l : mem_str s l = false <-> ~ In s l.
Proof. rewrite <- mem_str_iff. destruct (mem_str s l); split; congruence. Qed.

Lemma index_some {A} (l : list A) i d : (i < length l)%nat -> index l i = Ok (nth i l d).
Proof. intros L. unfold index. rewrite (nth_error_nth' l d L). reflexivity. Qed.
Lemma index_ok_iff {A} (l : list A) i a : index l i = Ok a <-> nth_error l i = Some a.
Proof. unfold index. destruct (nth_error l i); split; congruence. Qed.
Lemma index_ok_lt {A} (l : list A) i a : index l i = Ok a -> (i < length l)%nat.
Proof. rewrite index_ok_iff. intros E. apply nth_error_Some. congruence. Qed.

Lemma fold_out_snoc {A S} (f : S -> A -> out S) l x s :
  fold_out f (l ++ [x]) s = let* s' := fold_out f l s in f s' x.
Proof.
  revert s. induction l as [|y l IH]; intros s; simpl.
  - destruct (f s x); reflexivity.
  - destruct (f s y); simpl; auto.
Qed.
Lemma bind_ok_inv {A B} (x : out A) (f : A -> out B) b : bind x f = Ok b -> exists a, x = Ok a /\ f a = Ok b.
Proof. destruct x; simpl; intros E; [eauto|discriminate]. Qed.
Lemma assert_some_ok {A} (o : option A) a : assert_some o = Ok a <-> o = Some a.
Proof. destruct o; simpl; split; congruence. Qed.
Lemma assert_ok b u : assert_ b = Ok u -> b = true.
Proof. destruct b; simpl; congruence. Qed.

Lemma add_link_iff g l j g' : add_link g l j = Some g' <->
  ~ In l (sg_links g) /\ ~ In (tj_name j) (map tj_name (sg_joints g)) /\ In (tj_parent j) (sg_links g) /\
  g' = SG (sg_links g ++ [l]) (sg_joints g ++ [j]).
Proof.
  unfold add_link. destruct (mem_str l (sg_links g)) eqn:E1.
  { apply mem_str_iff in E1. split; [discriminate|tauto]. }
  apply mem_str_false in E1.
  destruct (mem_str (tj_name j) (map tj_name (sg_joints g))) eqn:E2.
  { apply mem_str_iff in E2. split; [discriminate|tauto]. }
  apply mem_str_false in E2.
  destruct (mem_str (tj_parent j) (sg_links g)) eqn:E3; simpl.
  - apply mem_str_iff in E3. split; [|intros (_ & _ & _ & ->); reflexivity].
    intros [= <-]. auto.
  - apply mem_str_false in E3. split; [discriminate|tauto].
Qed.

(* ---------- lists without repetition ---------- *)
Lemma nodup_firstn {A} (d : A) l : NoDup l <-> forall i, (i < length l)%nat -> ~ In (nth i l d) (firstn i l).
Proof.
  split.
  - intros N i L I. apply (In_nth _ _ d) in I. destruct I as (k & Lk & E).
    rewrite firstn_length in Lk.
    assert (Ek : nth k (firstn i l) d = nth k l d).
    { clear -Lk. revert i Lk. revert k. induction l as [|a l IH]; intros k i Lk; [destruct i; simpl in *; lia|].
      destruct i; [simpl in Lk; lia|]. destruct k; simpl; auto. apply IH. simpl in Lk. lia. }
    rewrite Ek in E. assert (k = i) by (apply (proj1 (NoDup_nth l d) N); auto; lia). lia.
  - intros H. apply (NoDup_nth l d). intros i j Li Lj E.
    assert (K : forall a b, (a < b)%nat -> (b < length l)%nat -> nth a l d = nth b l d -> False).
    { intros a b Lab Lb Eab. apply (H b Lb). rewrite <- Eab.
      assert (Ek : nth a (firstn b l) d = nth a l d).
      { clear -Lab Lb. revert a b Lab Lb. induction l as [|x l IH]; intros a b Lab Lb; [simpl in *; lia|].
        destruct b; [lia|]. destruct a; simpl; auto. apply IH; simpl in *; lia. }
      rewrite <- Ek. apply nth_In. rewrite firstn_length. lia. }
    destruct (Nat.lt_trichotomy i j) as [C|[C|C]]; auto; exfalso; [exact (K i j C Lj E)|exact (K j i C Li (eq_sym E))].
Qed.
Lemma firstn_snoc {A} (d : A) l i : (i < length l)%nat -> firstn (S i) l = firstn i l ++ [nth i l d].
Proof.
  revert i. induction l as [|a l IH]; intros i L; [simpl in L; lia|].
  destruct i; simpl; auto. rewrite <- IH by (simpl in L; lia). reflexivity.
Qed.
Lemma seq_snoc s k : seq s (S k) = seq s k ++ [(s + k)%nat].
Proof. rewrite <- Nat.add_1_r, seq_app. reflexivity. Qed.

(* ---------- the graph, spelled out ---------- *)
Section Graph.
  Variable aa : mat3 -> mat3.

  Definition tkind_of (ty : jtype) : tkind := match ty with Rotary => TRevolute | Prismatic => TPrismatic | _ => TFixed end.
  Definition opt_nth (o : option (list R)) (i : nat) : R := match o with Some l => nth i l 0 | None => 0 end.
  Definition chain_link (i : nat) : string := match i with O => "base_link" | S _ => link_name i end.
  Definition jt (r : robot) (i : nat) : tjoint :=
    TJ (nth i (moving_joints r) ""%string) (tkind_of (nth i (rtype r) Rotary)) (Some (nth i (rH r) vzero))
       (transform_to_isometry3d aa (Tf I3 (nth i (rP r) vzero) None None)) (chain_link i) (link_name (S i))
       (Some (TL (opt_nth (rlower r) i) (opt_nth (rupper r) i) 1000 (opt_nth (rvel r) i) (opt_nth (racc r) i))).
  Definition Lk (k : nat) : list string := "base_link"%string :: map link_name (seq 1 k).
  Definition Jk (r : robot) (k : nat) : list tjoint := map (jt r) (seq 0 k).

  Definition has_len (o : option (list R)) (i : nat) : Prop := exists l, o = Some l /\ (i < length l)%nat.
  Record good (r : robot) (i : nat) : Prop := {
    gd_plain : plain_type (nth i (rtype r) Rotary);
    gd_lo : has_len (rlower r) i; gd_up : has_len (rupper r) i; gd_ve : has_len (rvel r) i; gd_ac : has_len (racc r) i;
    gd_fresh : ~ In (nth i (moving_joints r) ""%string) (firstn i (moving_joints r)) }.

  Lemma index_opt_ok o i x : index_opt o i = Ok x -> has_len o i.
  Proof. destruct o as [l|]; simpl; [|discriminate]. intros E. exists l. split; auto. eapply index_ok_lt; eauto. Qed.
  Lemma index_opt_val o i : has_len o i -> index_opt o i = Ok (opt_nth o i).
  Proof. intros (l & -> & L). simpl. apply index_some, L. Qed.

  Lemma Lk_snoc k : Lk (S k) = Lk k ++ [link_name (S k)].
  Proof. unfold Lk. rewrite seq_snoc, map_app. reflexivity. Qed.
  Lemma Jk_snoc r k : Jk r (S k) = Jk r k ++ [jt r k].
  Proof. unfold Jk. rewrite seq_snoc, map_app. reflexivity. Qed.
  Lemma Lk_nodup k : NoDup (Lk k).
  Proof.
    unfold Lk. constructor; [|apply link_names_nodup].
    rewrite in_map_iff. intros (x & E & _). discriminate E.
  Qed.
  Lemma Lk_fresh k : ~ In (link_name (S k)) (Lk k).
  Proof.
    pose proof (Lk_nodup (S k)) as N. rewrite Lk_snoc in N. apply NoDup_remove_2 in N. rewrite app_nil_r in N. exact N.
  Qed.
  Lemma chain_link_in i k : (i <= k)%nat -> In (chain_link i) (Lk k).
  Proof.
    intros L. destruct i; [left; reflexivity|]. right. simpl. apply in_map, in_seq. lia.
  Qed.
  Lemma Jk_names r k : length (moving_joints r) = length (rtype r) -> (k <= length (rtype r))%nat ->
    map tj_name (Jk r k) = firstn k (moving_joints r).
  Proof.
    intros E. induction k as [|k IH]; intros L; auto.
    rewrite Jk_snoc, map_app, IH by lia. rewrite (firstn_snoc ""%string) by lia. reflexivity.
  Qed.

  Lemma step_spec r i : length (rH r) = length (rtype r) -> length (rP r) = S (length (rtype r)) ->
    length (moving_joints r) = length (rtype r) -> (i < length (rtype r))%nat ->
    (good r i -> sg_step aa r (moving_joints r) (map link_name (seq 1 (length (rtype r)))) (SG (Lk i) (Jk r i), Lk i) i
                 = Ok (SG (Lk (S i)) (Jk r (S i)), Lk (S i))) /\
    (forall st, sg_step aa r (moving_joints r) (map link_name (seq 1 (length (rtype r)))) (SG (Lk i) (Jk r i), Lk i) i = Ok st ->
                good r i).
  Proof.
    intros LH LP LJ Li. set (n := length (rtype r)) in *.
    assert (Lln : length (map link_name (seq 1 n)) = n) by (rewrite map_length, seq_length; reflexivity).
    assert (Nln : forall k, (k < n)%nat -> index (map link_name (seq 1 n)) k = Ok (link_name (S k))).
    { intros k L. unfold index. rewrite (map_nth_error link_name k (seq 1 n) (d := S k)); auto.
      rewrite (nth_error_nth' _ 0%nat) by (rewrite seq_length; lia). rewrite seq_nth by lia. reflexivity. }
    assert (Epar : match i with O => Ok "base_link"%string | S k => index (map link_name (seq 1 n)) k end = Ok (chain_link i)).
    { destruct i; auto. apply Nln. lia. }
    unfold sg_step. rewrite Epar. cbn [bind].
    rewrite (index_some (rH r) i vzero) by lia. cbn [bind].
    rewrite (index_some (rP r) i vzero) by lia. cbn [bind].
    rewrite (index_some (rtype r) i Rotary) by (subst n; lia). cbn [bind].
    split.
    - intros G. rewrite !index_opt_val by apply G. cbn [bind].
      rewrite Nln by lia. cbn [bind]. rewrite (index_some (moving_joints r) i ""%string) by lia. cbn [bind].
      unfold get_link_and_joint.
      replace (match nth i (rtype r) Rotary with Rotary => Ok TRevolute | Prismatic => Ok TPrismatic | _ => Err AssertionError end)
        with (Ok (tkind_of (nth i (rtype r) Rotary)))
        by (destruct (gd_plain r i G) as [-> | ->]; reflexivity).
      cbn [bind fst snd]. fold (jt r i).
      rewrite (proj2 (assert_some_ok _ (SG (Lk (S i)) (Jk r (S i))))).
      + cbn [bind]. rewrite <- Lk_snoc. reflexivity.
      + apply add_link_iff. cbn [sg_links sg_joints]. split; [apply Lk_fresh|]. split.
        { rewrite Jk_names by (auto; lia). apply (gd_fresh r i G). }
        split; [apply (chain_link_in i i); auto|]. rewrite Lk_snoc, Jk_snoc. reflexivity.
    - intros st E.
      apply bind_ok_inv in E as (lo & Elo & E). apply bind_ok_inv in E as (up & Eup & E).
      apply bind_ok_inv in E as (ve & Eve & E). apply bind_ok_inv in E as (ac & Eac & E).
      rewrite Nln in E by lia. cbn [bind] in E. rewrite (index_some (moving_joints r) i ""%string) in E by lia. cbn [bind] in E.
      apply bind_ok_inv in E as (lj & Elj & E). unfold get_link_and_joint in Elj.
      apply bind_ok_inv in Elj as (kind & Ek & [= <-]). cbn [fst snd] in E.
      apply bind_ok_inv in E as (g' & Eg & _). apply assert_some_ok, add_link_iff in Eg.
      cbn [sg_links sg_joints tj_name tj_parent] in Eg. destruct Eg as (_ & F & _).
      rewrite Jk_names in F by (auto; lia).
      split; try (eapply index_opt_ok; eassumption); auto.
      destruct (nth i (rtype r) Rotary); try discriminate; [left|right]; reflexivity.
  Qed.

  Lemma loop_spec r : length (rH r) = length (rtype r) -> length (rP r) = S (length (rtype r)) ->
    length (moving_joints r) = length (rtype r) -> forall k, (k <= length (rtype r))%nat ->
    ((forall i, (i < k)%nat -> good r i) ->
       fold_out (sg_step aa r (moving_joints r) (map link_name (seq 1 (length (rtype r))))) (seq 0 k) (SG (Lk 0) (Jk r 0), Lk 0)
       = Ok (SG (Lk k) (Jk r k), Lk k)) /\
    (forall st, fold_out (sg_step aa r (moving_joints r) (map link_name (seq 1 (length (rtype r))))) (seq 0 k) (SG (Lk 0) (Jk r 0), Lk 0) = Ok st ->
       forall i, (i < k)%nat -> good r i).
  Proof.
    intros LH LP LJ. induction k as [|k IH]; intros L.
    - split; [reflexivity|]. intros st _ i C; lia.
    - destruct (IH ltac:(lia)) as [A B]. destruct (step_spec r k LH LP LJ ltac:(lia)) as [C D].
      rewrite seq_snoc, fold_out_snoc. cbn [Nat.add]. split.
      + intros G. rewrite A by auto. cbn [bind]. apply C, G; lia.
      + intros st E i Li. apply bind_ok_inv in E as (s' & E1 & E2).
        pose proof (B _ E1) as G. rewrite A in E1 by auto. inversion E1; subst s'.
        destruct (Nat.eq_dec i k) as [->|]; [exact (D _ E2)|apply G; lia].
  Qed.

  Definition tip_joint (r : robot) : tjoint :=
    TJ (link_name (length (rtype r)) ++ "_to_chain_tip") TFixed None
       (transform_to_isometry3d aa (Tf I3 (nth (length (rtype r)) (rP r) vzero) None None))
       (link_name (length (rtype r))) "chain_tip" None.
  Definition flange_joints (r : robot) : list tjoint :=
    match rflange r with
    | Some T => [TJ "tip_to_flange" TFixed None (transform_to_isometry3d aa T) "chain_tip" "flange" None]
    | None => []
    end.
  Definition tool_parent (r : robot) : string := match rflange r with Some _ => "flange" | None => "chain_tip" end.
  Definition tool_joints (r : robot) : list tjoint :=
    match rRtool r, rptool r with
    | Some A, Some p => [TJ "tip_to_tool" TFixed None (transform_to_isometry3d aa (Tf A p None None)) (tool_parent r) "tool_tcp" None]
    | _, _ => []
    end.
  Definition all_joints (r : robot) : list tjoint :=
    Jk r (length (rtype r)) ++ [tip_joint r] ++ flange_joints r ++ tool_joints r.

  Lemma all_joint_names r : length (moving_joints r) = length (rtype r) ->
    map tj_name (all_joints r) = moving_joints r ++ fixed_joints r.
  Proof.
    intros E. unfold all_joints, fixed_joints. rewrite !map_app, Jk_names by auto. rewrite <- E, firstn_all.
    f_equal. cbn [map tj_name tip_joint]. rewrite E. f_equal.
    unfold flange_joints, tool_joints. destruct (rflange r), (rRtool r), (rptool r); reflexivity.
  Qed.

  (** NoDup of the joint names, name by name *)
  Lemma fixed_names_nodup r : NoDup (fixed_joints r).
  Proof.
    unfold fixed_joints. destruct (rflange r), (rRtool r), (rptool r); cbn [app];
      repeat (constructor; [cbn [In]; intuition discriminate|]); constructor.
  Qed.
  Lemma nodup_app {A} (a b : list A) : NoDup (a ++ b) <-> NoDup a /\ NoDup b /\ forall x, In x b -> ~ In x a.
  Proof.
    induction a as [|x a IH]; simpl.
    - split; [|tauto]. intros N. split; [constructor|split]; auto.
    - rewrite !NoDup_cons_iff, IH, in_app_iff. split.
      + intros (N & A1 & A2 & A3). split; [tauto|]. split; auto. intros y I [E|C]; [subst; tauto|exact (A3 y I C)].
      + intros ((N & A1) & A2 & A3). split; [|split; auto; split; auto].
        * intros [C|C]; [tauto|]. apply (A3 x C). auto.
        * intros y I C. apply (A3 y I). auto.
  Qed.

  Lemma graphable_good r : graphable r <->
    (0 < length (rtype r))%nat /\ length (moving_joints r) = length (rtype r) /\
    (forall i, (i < length (rtype r))%nat -> good r i) /\ (forall x, In x (fixed_joints r) -> ~ In x (moving_joints r)).
  Proof.
    split.
    - intros [A B (lo & up & ve & ac & E1 & E2 & E3 & E4 & L1 & L2 & L3 & L4) D E]. apply nodup_app in E as (N & _ & F).
      split; auto. split; auto. split; auto. intros i L. split.
      + rewrite Forall_forall in B. apply B, nth_In; lia.
      + exists lo; split; auto; lia.
      + exists up; split; auto; lia.
      + exists ve; split; auto; lia.
      + exists ac; split; auto; lia.
      + apply (proj1 (nodup_firstn ""%string _) N). lia.
    - intros (A & D & G & F). split; auto.
      + apply Forall_forall. intros x I. apply (In_nth _ _ Rotary) in I. destruct I as (i & L & <-). apply (G i L).
      + set (k := (length (rtype r) - 1)%nat). assert (Lk' : (k < length (rtype r))%nat) by (unfold k; lia).
        destruct (G k Lk') as [_ (lo & ? & ?) (up & ? & ?) (ve & ? & ?) (ac & ? & ?) _].
        exists lo, up, ve, ac. repeat split; auto; unfold k in *; lia.
      + apply nodup_app. split; [|split; [apply fixed_names_nodup|exact F]].
        apply (nodup_firstn ""%string). intros i L. apply (gd_fresh r i). apply G. lia.
  Qed.

  Lemma Lk_tip n x : match x with String c _ => Ascii.eqb c "l"%char = false | EmptyString => True end ->
    x <> "base_link"%string -> ~ In x (Lk n).
  Proof.
    intros F N [E|E]; [congruence|]. apply in_map_iff in E. destruct E as (i & E & _). subst x. discriminate F.
  Qed.

  Lemma rsg_unfold r : length (rP r) = S (length (rtype r)) -> length (moving_joints r) = length (rtype r) ->
    (0 < length (rtype r))%nat ->
    robot_to_scene_graph aa r =
    (let* st := fold_out (sg_step aa r (moving_joints r) (map link_name (seq 1 (length (rtype r))))) (seq 0 (length (rtype r)))
                  (SG (Lk 0) (Jk r 0), Lk 0) in
     let '(sg, names) := st in
     let* sg := assert_some (add_link sg "chain_tip" (tip_joint r)) in
     let names := names ++ ["chain_tip"%string] in
     let* st := match rflange r with
                | Some T =>
                    let '(l, j) := get_fixed_link_and_joint aa T "flange" "tip_to_flange" "chain_tip" in
                    let* sg := assert_some (add_link sg l j) in
                    Ok (sg, "flange"%string, names ++ ["flange"%string])
                | None => Ok (sg, "chain_tip"%string, names)
                end in
     let '(sg, tip, names) := st in
     let* st := match rRtool r, rptool r with
                | Some A, Some p =>
                    let '(l, j) := get_fixed_link_and_joint aa (Tf A p None None) "tool_tcp" "tip_to_tool" tip in
                    let* sg := assert_some (add_link sg l j) in
                    Ok (sg, names ++ ["tool_tcp"%string])
                | _, _ => Ok (sg, names)
                end in
     let '(sg, names) := st in
     Ok (sg, names, moving_joints r, "base_link"%string :: map link_name (seq 1 (length (rtype r))))).
  Proof.
    intros LP LJ Ln. unfold robot_to_scene_graph.
    replace (match rnames r with
             | Some l => l
             | None => map (fun i => "joint_" ++ str_nat (i + 1))%string (seq 0 (length (rtype r)))
             end) with (moving_joints r) by (unfold moving_joints; rewrite joint_names_eq; destruct (rnames r); reflexivity).
    rewrite link_names_eq. rewrite LJ, Nat.eqb_refl. cbn [add_link0 mem_str existsb empty_sg sg_links sg_joints assert_some bind assert_ app].
    change (SG ["base_link"%string] [], ["base_link"%string]) with (SG (Lk 0) (Jk r 0), Lk 0).
    destruct (fold_out _ _ _) as [[sg names]|e]; [|reflexivity]. cbn [bind].
    rewrite (index_some (rP r) (length (rtype r)) vzero) by lia. cbn [bind].
    destruct (length (rtype r)) as [|k] eqn:En; [lia|].
    assert (Nln : index (map link_name (seq 1 (S k))) k = Ok (link_name (S k))).
    { unfold index. rewrite (map_nth_error link_name k (seq 1 (S k)) (d := S k)); auto.
      rewrite (nth_error_nth' _ 0%nat) by (rewrite seq_length; lia). rewrite seq_nth by lia. reflexivity. }
    rewrite Nln. cbn [bind]. unfold get_fixed_link_and_joint at 1. unfold tip_joint. rewrite En. reflexivity.
  Qed.

  Lemma rsg_iff r : length (rH r) = length (rtype r) -> length (rP r) = S (length (rtype r)) -> forall res,
    robot_to_scene_graph aa r = Ok res <->
    graphable r /\ res = (SG (graph_links r) (all_joints r), graph_links r, moving_joints r,
                          "base_link"%string :: map link_name (seq 1 (length (rtype r)))).
  Proof.
    intros LH LP res.
    assert (Lmv : match rnames r with
             | Some l => l
             | None => map (fun i => "joint_" ++ str_nat (i + 1))%string (seq 0 (length (rtype r)))
             end = moving_joints r) by (unfold moving_joints; rewrite joint_names_eq; destruct (rnames r); reflexivity).
    destruct (Nat.eq_dec (length (moving_joints r)) (length (rtype r))) as [LJ|NJ].
    2: { split; [|intros [G _]; exfalso; apply NJ, (gr_names r G)].
         unfold robot_to_scene_graph. rewrite Lmv.
         rewrite (proj2 (Nat.eqb_neq _ _) NJ). discriminate. }
    destruct (Nat.eq_dec (length (rtype r)) 0) as [Z|NZ].
    { split; [|intros [G _]; exfalso; pose proof (gr_some r G); lia].
      unfold robot_to_scene_graph. rewrite Lmv, LJ, Z. cbn [seq map fold_out].
      destruct (rP r) as [|p0 P]; [discriminate LP|]. discriminate. }
    rewrite rsg_unfold by (auto; lia).
    destruct (loop_spec r LH LP LJ (length (rtype r)) (le_n _)) as [A B].
    assert (NT : ~ In "chain_tip"%string (Lk (length (rtype r)))) by (apply Lk_tip; [reflexivity|discriminate]).
    assert (NF : ~ In "flange"%string (Lk (length (rtype r)) ++ ["chain_tip"%string])).
    { rewrite in_app_iff. intros [C|[C|[]]]; [|discriminate]. revert C. apply Lk_tip; [reflexivity|discriminate]. }
    assert (NL : ~ In "tool_tcp"%string ((Lk (length (rtype r)) ++ ["chain_tip"%string]) ++ ["flange"%string])).
    { rewrite !in_app_iff. intros [[C|[C|[]]]|[C|[]]]; try discriminate. revert C. apply Lk_tip; [reflexivity|discriminate]. }
    assert (NL' : ~ In "tool_tcp"%string (Lk (length (rtype r)) ++ ["chain_tip"%string])).
    { intros C. apply NL, in_or_app. auto. }
    assert (PT : In (link_name (length (rtype r))) (Lk (length (rtype r)))).
    { destruct (length (rtype r)) as [|k]; [lia|]. apply (chain_link_in (S k)). lia. }
    assert (EN : map tj_name (Jk r (length (rtype r))) = moving_joints r).
    { rewrite Jk_names by auto. rewrite <- LJ. apply firstn_all. }
    split.
    - intros E. apply bind_ok_inv in E as (st & E1 & E). pose proof (B _ E1) as G. rewrite A in E1 by auto.
      injection E1 as <-. cbn [bind] in E.
      apply bind_ok_inv in E as (g1 & E1 & E). apply assert_some_ok, add_link_iff in E1.
      cbn [sg_links sg_joints] in E1. destruct E1 as (_ & F1 & _ & ->). rewrite EN in F1.
      apply bind_ok_inv in E as (st & E2 & E).
      destruct (rflange r) as [T|] eqn:EF.
      + unfold get_fixed_link_and_joint in E2. apply bind_ok_inv in E2 as (g2 & E2 & [= <-]).
        apply assert_some_ok, add_link_iff in E2. cbn [sg_links sg_joints] in E2.
        destruct E2 as (_ & F2 & _ & ->). rewrite map_app, EN in F2.
        apply bind_ok_inv in E as (st & E3 & E).
        destruct (rRtool r) as [At|] eqn:ER; [destruct (rptool r) as [pt|] eqn:EP|].
        * unfold get_fixed_link_and_joint in E3. apply bind_ok_inv in E3 as (g3 & E3 & [= <-]).
          apply assert_some_ok, add_link_iff in E3. cbn [sg_links sg_joints] in E3.
          destruct E3 as (_ & F3 & _ & ->). rewrite !map_app, EN in F3. injection E as <-. split.
          { apply graphable_good. split; [lia|split; [exact LJ|split; [exact G|]]]. unfold fixed_joints. rewrite EF, ER, EP. cbn [app In].
            intros x [<-|[<-|[<-|[]]]]; [exact F1| |];
              intros C; [apply F2|apply F3]; rewrite ?in_app_iff; cbn [tj_name]; auto. }
          unfold graph_links, flange_links, tool_links, all_joints, flange_joints, tool_joints, tool_parent.
          rewrite EF, ER, EP. unfold Lk. rewrite <- !app_assoc. reflexivity.
        * injection E3 as <-. injection E as <-. split.
          { apply graphable_good. split; [lia|split; [exact LJ|split; [exact G|]]]. unfold fixed_joints. rewrite EF, ER, EP. cbn [app In].
            intros x [<-|[<-|[]]]; [exact F1|];
              intros C; apply F2; rewrite ?in_app_iff; cbn [tj_name]; auto. }
          unfold graph_links, flange_links, tool_links, all_joints, flange_joints, tool_joints, tool_parent.
          rewrite EF, ER, EP. unfold Lk. rewrite ?app_nil_r, <- !app_assoc. reflexivity.
        * injection E3 as <-. injection E as <-. split.
          { apply graphable_good. split; [lia|split; [exact LJ|split; [exact G|]]]. unfold fixed_joints. rewrite EF, ER. cbn [app In].
            intros x [<-|[<-|[]]]; [exact F1|];
              intros C; apply F2; rewrite ?in_app_iff; cbn [tj_name]; auto. }
          unfold graph_links, flange_links, tool_links, all_joints, flange_joints, tool_joints, tool_parent.
          rewrite EF, ER. unfold Lk. rewrite ?app_nil_r, <- !app_assoc. reflexivity.
      + injection E2 as <-. apply bind_ok_inv in E as (st & E3 & E).
        destruct (rRtool r) as [At|] eqn:ER; [destruct (rptool r) as [pt|] eqn:EP|].
        * unfold get_fixed_link_and_joint in E3. apply bind_ok_inv in E3 as (g3 & E3 & [= <-]).
          apply assert_some_ok, add_link_iff in E3. cbn [sg_links sg_joints] in E3.
          destruct E3 as (_ & F3 & _ & ->). rewrite !map_app, EN in F3. injection E as <-. split.
          { apply graphable_good. split; [lia|split; [exact LJ|split; [exact G|]]]. unfold fixed_joints. rewrite EF, ER, EP. cbn [app In].
            intros x [<-|[<-|[]]]; [exact F1|];
              intros C; apply F3; rewrite ?in_app_iff; cbn [tj_name]; auto. }
          unfold graph_links, flange_links, tool_links, all_joints, flange_joints, tool_joints, tool_parent.
          rewrite EF, ER, EP. unfold Lk. rewrite <- !app_assoc. reflexivity.
        * injection E3 as <-. injection E as <-. split.
          { apply graphable_good. split; [lia|split; [exact LJ|split; [exact G|]]]. unfold fixed_joints. rewrite EF, ER, EP. cbn [app In].
            intros x [<-|[]]; exact F1. }
          unfold graph_links, flange_links, tool_links, all_joints, flange_joints, tool_joints, tool_parent.
          rewrite EF, ER, EP. unfold Lk. rewrite ?app_nil_r. reflexivity.
        * injection E3 as <-. injection E as <-. split.
          { apply graphable_good. split; [lia|split; [exact LJ|split; [exact G|]]]. unfold fixed_joints. rewrite EF, ER. cbn [app In].
            intros x [<-|[]]; exact F1. }
          unfold graph_links, flange_links, tool_links, all_joints, flange_joints, tool_joints, tool_parent.
          rewrite EF, ER. unfold Lk. rewrite ?app_nil_r. reflexivity.
    - intros [G ->]. apply graphable_good in G. destruct G as (_ & _ & G & F). rewrite A by auto. cbn [bind].
      assert (E1 : add_link (SG (Lk (length (rtype r))) (Jk r (length (rtype r)))) "chain_tip" (tip_joint r)
                   = Some (SG (Lk (length (rtype r)) ++ ["chain_tip"%string]) (Jk r (length (rtype r)) ++ [tip_joint r]))).
      { apply add_link_iff. cbn [sg_links sg_joints]. rewrite EN. repeat split; auto.
        apply F. unfold fixed_joints. left. reflexivity. }
      rewrite E1. cbn [assert_some bind]. clear E1.
      destruct (rflange r) as [T|] eqn:EF.
      + unfold get_fixed_link_and_joint.
        match goal with |- context [add_link ?g ?l ?j] => assert (E2 : add_link g l j = Some (SG (sg_links g ++ [l]) (sg_joints g ++ [j]))) end.
        { apply add_link_iff. cbn [sg_links sg_joints tj_name tj_parent]. rewrite map_app, EN. repeat split; auto.
          - intros C. apply in_app_iff in C. destruct C as [C|[C|[]]]; [|discriminate C].
            revert C. apply F. unfold fixed_joints. rewrite EF. cbn [app In]. auto.
          - apply in_or_app. right. left. reflexivity. }
        rewrite E2. cbn [assert_some bind sg_links sg_joints]. clear E2.
        destruct (rRtool r) as [At|] eqn:ER; [destruct (rptool r) as [pt|] eqn:EP|].
        * match goal with |- context [add_link ?g ?l ?j] => assert (E3 : add_link g l j = Some (SG (sg_links g ++ [l]) (sg_joints g ++ [j]))) end.
          { apply add_link_iff. cbn [sg_links sg_joints tj_name tj_parent]. rewrite !map_app, EN. repeat split; auto.
            - intros C. rewrite !in_app_iff in C. destruct C as [[C|[C|[]]]|[C|[]]]; try discriminate C.
              revert C. apply F. unfold fixed_joints. rewrite EF, ER, EP. cbn [app In]. auto.
            - apply in_or_app. right. left. reflexivity. }
          rewrite E3. cbn [assert_some bind sg_links sg_joints].
          unfold graph_links, flange_links, tool_links, all_joints, flange_joints, tool_joints, tool_parent.
          rewrite EF, ER, EP. unfold Lk. rewrite <- !app_assoc. reflexivity.
        * cbn [bind]. unfold graph_links, flange_links, tool_links, all_joints, flange_joints, tool_joints, tool_parent.
          rewrite EF, ER, EP. unfold Lk. rewrite ?app_nil_r, <- !app_assoc. reflexivity.
        * cbn [bind]. unfold graph_links, flange_links, tool_links, all_joints, flange_joints, tool_joints, tool_parent.
          rewrite EF, ER. unfold Lk. rewrite ?app_nil_r, <- !app_assoc. reflexivity.
      + cbn [bind]. destruct (rRtool r) as [At|] eqn:ER; [destruct (rptool r) as [pt|] eqn:EP|].
        * unfold get_fixed_link_and_joint.
          match goal with |- context [add_link ?g ?l ?j] => assert (E3 : add_link g l j = Some (SG (sg_links g ++ [l]) (sg_joints g ++ [j]))) end.
          { apply add_link_iff. cbn [sg_links sg_joints tj_name tj_parent]. rewrite !map_app, EN. repeat split; auto.
            - intros C. rewrite !in_app_iff in C. destruct C as [C|[C|[]]]; try discriminate C.
              revert C. apply F. unfold fixed_joints. rewrite EF, ER, EP. cbn [app In]. auto.
            - apply in_or_app. right. left. reflexivity. }
          rewrite E3. cbn [assert_some bind sg_links sg_joints].
          unfold graph_links, flange_links, tool_links, all_joints, flange_joints, tool_joints, tool_parent.
          rewrite EF, ER, EP. unfold Lk. rewrite <- !app_assoc. reflexivity.
        * cbn [bind]. unfold graph_links, flange_links, tool_links, all_joints, flange_joints, tool_joints, tool_parent.
          rewrite EF, ER, EP. unfold Lk. rewrite ?app_nil_r. reflexivity.
        * cbn [bind]. unfold graph_links, flange_links, tool_links, all_joints, flange_joints, tool_joints, tool_parent.
          rewrite EF, ER. unfold Lk. rewrite ?app_nil_r. reflexivity.
  Qed.
End Graph.

(* ---------- walking ---------- *)
Fixpoint walk (q : string -> R) (js : list tjoint) (x : vec3) : vec3 :=
  match js with [] => x | j :: js' => joint_place j (q (tj_name j)) (walk q js' x) end.
(** joints in a row from link a to link b *)
Fixpoint in_row (js : list tjoint) (a b : string) : Prop :=
  match js with [] => a = b | j :: js' => tj_parent j = a /\ in_row js' (tj_child j) b end.

Lemma walk_app q a b x : walk q (a ++ b) x = walk q a (walk q b x).
Proof. induction a as [|j a IH]; simpl; congruence. Qed.
Lemma in_row_app a b x y z : in_row a x y -> in_row b y z -> in_row (a ++ b) x z.
Proof.
  revert x. induction a as [|j a IH]; simpl; intros x.
  - intros ->. auto.
  - intros (E & F) G. split; eauto.
Qed.

Lemma placed_walk g q root js : forall a b f, incl js (sg_joints g) -> in_row js a b -> placed g q root a f ->
  exists f', placed g q root b f' /\ forall x, f' x = f (walk q js x).
Proof.
  induction js as [|j js IH]; intros a b f I S P; simpl in S.
  - subst b. exists f. split; auto.
  - destruct S as (E & S). subst a.
    destruct (IH (tj_child j) b (fun x => f (joint_place j (q (tj_name j)) x))) as (f' & P' & E'); auto.
    { intros x Hx. apply I. right. exact Hx. }
    { apply placed_joint; auto. apply I. left. reflexivity. }
    exists f'. split; auto.
Qed.

(** In a graph whose joints have different children, none of them the root, the placement of a
    link is unique. *)
Lemma nodup_map_inj {A B} (h : A -> B) l x y : NoDup (map h l) -> In x l -> In y l -> h x = h y -> x = y.
Proof.
  induction l as [|a l IH]; simpl; intros N Ix Iy E; [contradiction|].
  apply NoDup_cons_iff in N as (Na & N). destruct Ix as [->|Ix], Iy as [->|Iy]; auto.
  - exfalso. apply Na. rewrite E. apply in_map, Iy.
  - exfalso. apply Na. rewrite <- E. apply in_map, Ix.
Qed.
Lemma placed_unique g q root : NoDup (map tj_child (sg_joints g)) -> ~ In root (map tj_child (sg_joints g)) ->
  forall l f, placed g q root l f -> forall f', placed g q root l f' -> forall x, f x = f' x.
Proof.
  intros N Rt l f P. induction P as [|j f Ij P IH].
  - intros f' P'. inversion P' as [|j' f0 Ij' P0 E]; subst; auto. intros x.
    exfalso. apply Rt. apply in_map, Ij'.
  - intros f' P' x. inversion P' as [E|j' f0 Ij' P0 E]; subst.
    + exfalso. apply Rt. apply in_map, Ij.
    + assert (j' = j) as -> by (eapply nodup_map_inj; eauto). rewrite (IH _ P0). reflexivity.
Qed.

Section Walk.
  Variable aa : mat3 -> mat3.
  Hypothesis aa_rot : forall A, is_SO3 A -> aa A = A.

  Lemma act_iso T x : rigid T -> act (transform_to_isometry3d aa T) x = act T x.
  Proof. intros S. unfold act, transform_to_isometry3d; simpl. rewrite (aa_rot _ S). reflexivity. Qed.
  Lemma act_shift p x : act (transform_to_isometry3d aa (Tf I3 p None None)) x = vadd p x.
  Proof. rewrite act_iso by exact SO3_I. unfold act; simpl. rewrite mvec_I. la_ring. Qed.

  Lemma skipn_nth {A} (d : A) s l : (s < List.length l)%nat -> skipn s l = nth s l d :: skipn (S s) l.
  Proof.
    revert s. induction l as [|a l IH]; intros s L; [simpl in L; lia|]. destruct s; auto. simpl in L. cbn [skipn nth].
    rewrite IH by lia. reflexivity.
  Qed.

  Lemma walk_moving r q theta z : List.length (rH r) = List.length (rtype r) -> List.length (rP r) = S (List.length (rtype r)) ->
    Forall plain_type (rtype r) -> assigns q (moving_joints r) theta ->
    List.length (moving_joints r) = List.length (rtype r) ->
    forall m s, (s + m = List.length (rtype r))%nat ->
    walk q (map (jt aa r) (seq s m)) (vadd (nth (List.length (rtype r)) (rP r) vzero) z)
    = vadd (nth s (rP r) vzero) (chain (skipn s (rtype r)) (skipn s (rH r)) (skipn (S s) (rP r)) (skipn s theta) z).
  Proof.
    intros LH LP PT AS LJ.
    assert (Lt : List.length theta = List.length (rtype r)).
    { rewrite <- LJ. clear -AS. induction AS; simpl; congruence. }
    assert (V : forall i, (i < List.length (rtype r))%nat -> q (nth i (moving_joints r) ""%string) = nth i theta 0).
    { intros i L. assert (L' : (i < List.length (moving_joints r))%nat) by lia. clear -AS L'. revert i L'. induction AS; simpl; intros i L; [lia|].
      destruct i; auto. apply IHAS; lia. }
    induction m as [|m IH]; intros s E.
    - assert (s = List.length (rtype r)) by lia. subst s. rewrite skipn_all2 by lia. reflexivity.
    - cbn [seq map walk]. rewrite IH by lia.
      rewrite (skipn_nth Rotary s (rtype r)), (skipn_nth vzero s (rH r)), (skipn_nth vzero (S s) (rP r)), (skipn_nth 0 s theta) by lia.
      cbn [chain]. unfold joint_place. cbn [tj_origin jt tj_kind tj_axis tj_name]. rewrite act_shift, V by lia. f_equal.
      rewrite Forall_forall in PT. destruct (PT (nth s (rtype r) Rotary)) as [-> | ->]; [apply nth_In; lia| |]; reflexivity.
  Qed.

  Lemma in_row_moving r : forall m s, (s + m = List.length (rtype r))%nat ->
    in_row (map (jt aa r) (seq s m)) (chain_link s) (chain_link (List.length (rtype r))).
  Proof.
    induction m as [|m IH]; intros s E; simpl.
    - f_equal. lia.
    - split; auto. apply (IH (S s)). lia.
  Qed.

  (** the joints after the moving ones *)
  Definition tail_joints (r : robot) : list tjoint := [tip_joint aa r] ++ flange_joints aa r ++ tool_joints aa r.
  Definition tip_link (r : robot) : string := List.last (graph_links r) ""%string.
  Definition tip_of (r : robot) : string :=
    match rRtool r, rptool r with Some _, Some _ => "tool_tcp"%string | _, _ => tool_parent r end.
  Lemma tip_link_eq r : tip_link r = tip_of r.
  Proof.
    unfold tip_link, graph_links, tip_of, tool_parent, flange_links, tool_links.
    assert (K : forall (a : string) l x, List.last (a :: l ++ [x]) ""%string = x).
    { intros a l x. rewrite app_comm_cons. apply last_last. }
    destruct (rflange r), (rRtool r), (rptool r); cbn [app];
      rewrite ?(K _ (map link_name (seq 1 (List.length (rtype r)))) _); auto;
      match goal with |- List.last (?a :: ?l ++ ?b :: ?c) _ = _ =>
        change (b :: c) with ([b] ++ c); rewrite app_assoc end;
      try (rewrite app_comm_cons, last_last; reflexivity).
      all: match goal with |- List.last (?a :: ?l ++ ?b :: ?c) _ = _ =>
        change (b :: c) with ([b] ++ c); rewrite app_assoc end; rewrite app_comm_cons, last_last; reflexivity.
  Qed.
  Lemma in_row_tail r : (0 < List.length (rtype r))%nat -> in_row (tail_joints r) (chain_link (List.length (rtype r))) (tip_of r).
  Proof.
    intros L. unfold tail_joints, flange_joints, tool_joints, tip_of, tip_joint, tool_parent.
    destruct (List.length (rtype r)) as [|n]; [lia|].
    destruct (rflange r), (rRtool r), (rptool r); simpl; repeat split.
  Qed.
  Lemma walk_tail r q x : rigid_opt (rflange r) -> (forall A, rRtool r = Some A -> is_SO3 A) ->
    walk q (tail_joints r) x = vadd (nth (List.length (rtype r)) (rP r) vzero) (act_opt (rflange r) (act_tool r x)).
  Proof.
    intros RF RT. unfold tail_joints. cbn [app walk]. unfold joint_place at 1. cbn [tj_origin tip_joint tj_kind].
    rewrite act_shift. f_equal. rewrite walk_app.
    assert (Et : walk q (tool_joints aa r) x = act_tool r x).
    { unfold tool_joints, act_tool. destruct (rRtool r) as [A|]; auto. destruct (rptool r) as [p|]; auto.
      simpl. unfold joint_place; cbn [tj_origin tj_kind]. rewrite act_iso; auto. apply RT. reflexivity. }
    rewrite Et. unfold flange_joints. destruct (rflange r) as [T|]; auto.
    simpl. unfold joint_place; cbn [tj_origin tj_kind]. apply act_iso, RF.
  Qed.

  Definition plain_point (r : robot) (theta : list R) (x : vec3) : vec3 :=
    vadd (hd vzero (rP r)) (chain (rtype r) (rH r) (tl (rP r)) theta (act_opt (rflange r) (act_tool r x))).
  Lemma walk_all r q theta x : List.length (rH r) = List.length (rtype r) -> List.length (rP r) = S (List.length (rtype r)) ->
    wf_aux r -> Forall plain_type (rtype r) -> assigns q (moving_joints r) theta ->
    List.length (moving_joints r) = List.length (rtype r) ->
    walk q (all_joints aa r) x = plain_point r theta x.
  Proof.
    intros LH LP W PT AS LJ. unfold all_joints. rewrite walk_app.
    change ([tip_joint aa r] ++ flange_joints aa r ++ tool_joints aa r) with (tail_joints r).
    rewrite walk_tail by (try apply (wf_flange r W); apply (wf_tool r W)). unfold Jk.
    rewrite (walk_moving r q theta) by auto. unfold plain_point. cbn [skipn].
    destruct (rP r) as [|p0 P]; [discriminate|]. reflexivity.
  Qed.
  Lemma in_row_all r : (0 < List.length (rtype r))%nat -> in_row (all_joints aa r) "base_link" (tip_of r).
  Proof.
    intros L. unfold all_joints. eapply in_row_app; [apply (in_row_moving r _ 0); lia|].
    apply in_row_tail, L.
  Qed.

  (** children and parents of the joints *)
  Lemma in_row_serial : forall js a b, in_row js a b ->
    map (fun j => (tj_parent j, tj_child j)) js = serial (a :: map tj_child js).
  Proof.
    induction js as [|j js IH]; intros a b S; auto. destruct S as (E & S). cbn [map serial].
    rewrite (IH _ _ S), E. reflexivity.
  Qed.
  Lemma all_children r : "base_link"%string :: map tj_child (all_joints aa r) = graph_links r.
  Proof.
    unfold all_joints, graph_links. rewrite !map_app. f_equal. f_equal.
    - unfold Jk. rewrite map_map. rewrite <- seq_shift, map_map. apply map_ext. intros i. reflexivity.
    - unfold flange_joints, tool_joints, flange_links, tool_links.
      destruct (rflange r), (rRtool r), (rptool r); reflexivity.
  Qed.
  Lemma graph_links_nodup r : NoDup (graph_links r).
  Proof.
    unfold graph_links. change ("base_link"%string :: ?l ++ ?m) with (("base_link"%string :: l) ++ m).
    apply nodup_app. split; [apply (Lk_nodup (List.length (rtype r)))|]. split.
    - unfold flange_links, tool_links. destruct (rflange r), (rRtool r), (rptool r); cbn [app];
        repeat (constructor; [cbn [In]; intuition discriminate|]); constructor.
    - intros x I. apply (Lk_tip (List.length (rtype r))); unfold flange_links, tool_links in I;
      destruct (rflange r), (rRtool r), (rptool r); cbn [app In] in I;
      repeat (destruct I as [<-|I]; [first [reflexivity|discriminate]|]); contradiction.
  Qed.
End Walk.

(* ---------- environments ---------- *)
Section Env.
  Variable aa : mat3 -> mat3.
  Hypothesis aa_rot : forall A, is_SO3 A -> aa A = A.

  Definition pre (name s : string) : string := (name ++ "_" ++ s)%string.
  Definition env_graph (r : robot) (name : string) : sgraph :=
    SG ("world"%string :: map (pre name) (graph_links r))
       (map (prefix_joint (name ++ "_")) (all_joints aa r) ++ [get_robot_world_to_base_joint aa r name]).

  Lemma index_last_ok {A} (l : list A) d : l <> [] -> index_last l = Ok (List.last l d).
  Proof.
    destruct l as [|x l]; intros H; [congruence|]. simpl. f_equal. clear H. revert x.
    induction l as [|y l IH]; intros x; auto. destruct l as [|z l]; auto.
    specialize (IH x). cbn [List.last] in *. rewrite IH. reflexivity.
  Qed.
  Lemma last_map {A B} (f : A -> B) l d : List.last (map f l) (f d) = f (List.last l d).
  Proof. induction l as [|x [|y l] IH]; auto. Qed.
  Lemma last_default {A} (l : list A) d d' : l <> [] -> List.last l d = List.last l d'.
  Proof. induction l as [|x [|y l] IH]; intros H; auto; [congruence|]. apply IH. discriminate. Qed.
  Lemma pre_last r name : List.last (map (pre name) (graph_links r)) ""%string = pre name (tip_of r).
  Proof.
    rewrite <- tip_link_eq. unfold tip_link. rewrite <- (last_map (pre name)). apply last_default. discriminate.
  Qed.

  Definition env_fresh (r : robot) (name : string) : Prop :=
    ~ In ("world_to_" ++ name)%string (map (pre name) (moving_joints r ++ fixed_joints r)).

  Lemma pre_not_world name s : pre name s <> "world"%string.
  Proof.
    unfold pre. intros E. apply (f_equal (fun x => existsb (Ascii.eqb "_"%char) (list_ascii_of_string x))) in E.
    assert (K : forall a b, existsb (Ascii.eqb "_"%char) (list_ascii_of_string (a ++ String "_" b)) = true).
    { induction a as [|c a IH]; intros b; simpl; auto. rewrite IH. apply orb_true_r. }
    change ("_" ++ s)%string with (String "_" s) in E. rewrite K in E. discriminate E.
  Qed.
  Lemma pre_map name : map (fun l => (name ++ "_") ++ l)%string = map (pre name).
  Proof. apply (f_equal (@map string string)). apply FunctionalExtensionality.functional_extensionality. intros l. apply append_assoc. Qed.
  Lemma prefix_joint_names name js : map tj_name (map (prefix_joint (name ++ "_")) js) = map (pre name) (map tj_name js).
  Proof. rewrite !map_map. apply map_ext. intros j. apply append_assoc. Qed.

  Lemma attach_world r name : List.length (moving_joints r) = List.length (rtype r) ->
    attach (SG ["world"%string] []) (SG (graph_links r) (all_joints aa r)) (get_robot_world_to_base_joint aa r name) (name ++ "_")
    = if mem_str ("world_to_" ++ name) (map (pre name) (moving_joints r ++ fixed_joints r)) then None else Some (env_graph r name).
  Proof.
    intros LJ. unfold attach. cbn [sg_links sg_joints get_robot_world_to_base_joint tj_parent tj_child tj_name].
    rewrite (proj2 (mem_str_iff "world" ["world"%string])) by (left; reflexivity).
    rewrite pre_map. rewrite (proj2 (mem_str_iff _ _)).
    2: { apply in_map_iff. exists "base_link"%string. split; [reflexivity|left; reflexivity]. }
    cbn [andb]. unfold insert_graph, prefix_graph. cbn [sg_links sg_joints]. rewrite pre_map.
    assert (D : disjointb (map (pre name) (graph_links r)) ["world"%string] = true).
    { apply forallb_forall. intros x I. apply in_map_iff in I. destruct I as (s & <- & _).
      apply negb_true_iff, mem_str_false. intros [C|[]]. symmetry in C. revert C. apply pre_not_world. }
    rewrite D. cbn [andb map].
    assert (D' : forall l, disjointb l [] = true).
    { intros l. apply forallb_forall. intros x _. reflexivity. }
    rewrite D'. cbn [app sg_joints sg_links]. rewrite prefix_joint_names, all_joint_names by auto.
    destruct (mem_str _ _); reflexivity.
  Qed.

  Lemma commands_ok r name w solver ov cs links names :
    List.length (rH r) = List.length (rtype r) -> List.length (rP r) = S (List.length (rtype r)) ->
    robot_to_tesseract_env_commands aa r name w solver ov = Ok (cs, links, names) <->
    graphable r /\ exists info,
      kinematics_plugin_info_dict r name (map (pre name) (graph_links r))
        (pre name "base_link" :: map (pre name) (map link_name (seq 1 (List.length (rtype r))))) solver ov (Some "world"%string) (Some (pre name (tip_of r)))
      = Ok info /\
      cs = (if w then [AddSceneGraph (SG ["world"%string] []) None ""] else []) ++
           [AddSceneGraph (SG (graph_links r) (all_joints aa r)) (Some (get_robot_world_to_base_joint aa r name)) (name ++ "_");
            AddKinematicsInformation (KI name "world" (pre name (tip_of r)) info)] /\
      links = (if w then "world"%string :: map (pre name) (graph_links r) else map (pre name) (graph_links r)) /\
      names = map (pre name) (moving_joints r).
  Proof.
    intros LH LP. unfold robot_to_tesseract_env_commands.
    change (prefix_names) with (fun l (n : string) => map (pre n) l). cbv beta.
    set (c0 := if w then _ else _).
    split.
    - intros E. apply bind_ok_inv in E as (res & E1 & E). apply (rsg_iff aa r LH LP) in E1. destruct E1 as (G & ->).
      split; auto. rewrite (index_last_ok _ ""%string) in E by discriminate. cbn [bind] in E. rewrite pre_last in E.
      apply bind_ok_inv in E as (k & Ek & [= <- <- <-]).
      unfold tesseract_kinematics_information in Ek. cbn [bind] in Ek.
      apply bind_ok_inv in Ek as (info & Ei & [= <-]). exists info. auto.
    - intros (G & info & Ei & -> & -> & ->).
      rewrite (proj2 (rsg_iff aa r LH LP _) (conj G eq_refl)). cbn [bind].
      rewrite (index_last_ok _ ""%string) by discriminate. cbn [bind]. rewrite pre_last.
      unfold tesseract_kinematics_information. cbn [bind].
      replace (map (pre name) ("base_link"%string :: map link_name (seq 1 (List.length (rtype r)))))
        with (pre name "base_link" :: map (pre name) (map link_name (seq 1 (List.length (rtype r))))) by reflexivity.
      rewrite Ei. reflexivity.
  Qed.

  Lemma env_ok r name solver ov g ks links names :
    List.length (rH r) = List.length (rtype r) -> List.length (rP r) = S (List.length (rtype r)) ->
    robot_to_tesseract_env aa r name true solver ov = Ok (g, ks, links, names) <->
    graphable r /\ env_fresh r name /\ exists info,
      kinematics_plugin_info_dict r name (map (pre name) (graph_links r))
        (pre name "base_link" :: map (pre name) (map link_name (seq 1 (List.length (rtype r))))) solver ov (Some "world"%string) (Some (pre name (tip_of r)))
      = Ok info /\
      g = env_graph r name /\ ks = [KI name "world" (pre name (tip_of r)) info] /\
      links = "world"%string :: map (pre name) (graph_links r) /\ names = map (pre name) (moving_joints r).
  Proof.
    intros LH LP. unfold robot_to_tesseract_env.
    assert (AC : forall info, graphable r ->
      apply_commands ([AddSceneGraph (SG ["world"%string] []) None ""] ++
           [AddSceneGraph (SG (graph_links r) (all_joints aa r)) (Some (get_robot_world_to_base_joint aa r name)) (name ++ "_");
            AddKinematicsInformation (KI name "world" (pre name (tip_of r)) info)]) (empty_sg, [])
      = if mem_str ("world_to_" ++ name) (map (pre name) (moving_joints r ++ fixed_joints r)) then None
        else Some (env_graph r name, [KI name "world" (pre name (tip_of r)) info])).
    { intros info G. cbn [app apply_commands apply_command empty_sg fst snd sg_links].
      change (prefix_graph "" (SG ["world"%string] [])) with (SG ["world"%string] []).
      rewrite attach_world by apply (gr_names r G). destruct (mem_str _ _); reflexivity. }
    split.
    - intros E. apply bind_ok_inv in E as (((cs & l) & n) & E1 & E). apply (commands_ok r name true) in E1; auto.
      destruct E1 as (G & info & Ei & -> & -> & ->). cbn [bind] in E. rewrite AC in E by auto.
      destruct (mem_str _ _) eqn:M; cbn [assert_some bind] in E; [discriminate|]. apply mem_str_false in M.
      injection E as <- <- <- <-. split; auto. split; [exact M|]. exists info. auto.
    - intros (G & F & info & Ei & -> & -> & -> & ->).
      rewrite (proj2 (commands_ok r name true solver ov _ _ _ LH LP)
        (conj G (ex_intro _ info (conj Ei (conj eq_refl (conj eq_refl eq_refl)))))).
      cbn [bind]. rewrite AC by auto. rewrite (proj2 (mem_str_false _ _) F). reflexivity.
  Qed.

  Lemma walk_prefix q name js x : walk q (map (prefix_joint name) js) x = walk (fun n => q (name ++ n)%string) js x.
  Proof. induction js as [|j js IH]; simpl; auto. rewrite IH. reflexivity. Qed.
  Lemma in_row_prefix name js : forall a b, in_row js a b -> in_row (map (prefix_joint name) js) (name ++ a) (name ++ b).
  Proof.
    induction js as [|j js IH]; intros a b S; simpl in *; [congruence|]. destruct S as (E & S). split; [congruence|]. auto.
  Qed.
  Lemma env_children r name : map tj_child (sg_joints (env_graph r name)) =
    map (pre name) (tl (graph_links r)) ++ [pre name "base_link"].
  Proof.
    unfold env_graph. cbn [sg_joints]. rewrite map_app. cbn [map]. f_equal.
    rewrite <- (all_children aa r). cbn [tl]. rewrite !map_map. apply map_ext. intros j. apply append_assoc.
  Qed.
  Lemma pre_inj name a b : pre name a = pre name b -> a = b.
  Proof. intros E. apply append_inj_l in E. apply (append_inj_l "_") in E. exact E. Qed.
  Lemma env_unique r name : NoDup (map tj_child (sg_joints (env_graph r name))) /\
    ~ In "world"%string (map tj_child (sg_joints (env_graph r name))).
  Proof.
    rewrite env_children. split.
    - pose proof (graph_links_nodup r) as N. unfold graph_links in N |- *. cbn [tl].
      apply NoDup_cons_iff in N as (N1 & N2).
      apply nodup_app. split; [apply Injective_map_NoDup; [exact (pre_inj name)|exact N2]|].
      split; [constructor; [intros []|constructor]|].
      intros x [<-|[]] C. apply in_map_iff in C. destruct C as (s & E & I). apply pre_inj in E. subst s. auto.
    - rewrite in_app_iff. intros [C|[C|[]]].
      + apply in_map_iff in C. destruct C as (s & E & _). revert E. apply pre_not_world.
      + revert C. apply pre_not_world.
  Qed.
  Lemma assigns_pre q name names theta : assigns q (map (pre name) names) theta -> assigns (fun n => q ((name ++ "_") ++ n)%string) names theta.
  Proof.
    revert theta. induction names as [|n names IH]; intros theta A; inversion A; subst; constructor; auto.
    - rewrite append_assoc. reflexivity.
    - apply IH. assumption.
  Qed.
  Lemma base_walk q r name x : rigid_opt (rbase r) ->
    joint_place (get_robot_world_to_base_joint aa r name) q x = act_opt (rbase r) x.
  Proof.
    intros S. unfold joint_place, get_robot_world_to_base_joint. cbn [tj_origin tj_kind].
    destruct (rbase r) as [T|]; simpl in *; [apply act_iso; auto|]. unfold act; simpl. rewrite mvec_I. la_ring.
  Qed.
End Env.
