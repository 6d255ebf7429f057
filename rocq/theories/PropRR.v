(** Properties C53-C55: Robot Raconteur documents. *)
From Coq Require Import Reals ZArith String List Bool Arith Lra Lia.
From Verif Require Import LinAlg RealAux Py FactsReal FactsLinAlg ModelRot SpecRot FactsRot ModelTransform ModelRobot ModelKin
  SpecKin FactsKin FactsJac PropKin FactsInvkin ModelRR SpecRR FactsRR.
Import ListNotations.
Open Scope R_scope.

(* ---- a document with two one-joint chains ---- *)
Definition no_parse (s : string) : option (flt R) := None.
Definition yvec (x y z : Z) : yv := YMap [("x", YInt x); ("y", YInt y); ("z", YInt z)]%string.
Definition ypose (x y z : Z) : yv :=
  YMap [("orientation", YMap [("w", YInt 1); ("x", YInt 0); ("y", YInt 0); ("z", YInt 0)]); ("position", yvec x y z)]%string.
Definition yjoint (ty name : string) (lo up : Z) : yv :=
  YMap [("joint_identifier", YStr name); ("joint_type", YStr ty);
        ("joint_limits", YMap [("lower", YInt lo); ("upper", YInt up); ("velocity", YInt 5); ("acceleration", YFlt (1/2))])]%string.
Definition ychain (numbers : list nat) : yv :=
  YMap [("joint_numbers", YList (map (fun n => YInt (Z.of_nat n)) numbers));
        ("H", YList (repeat (yvec 0 0 1) (List.length numbers))); ("P", YList (repeat (yvec 1 2 3) (S (List.length numbers))));
        ("flange_identifier", YNull); ("flange_pose", ypose 0 0 7);
        ("link_identifiers", YList [YMap [("name", YStr "base")]]);
        ("current_tool", YMap [("tcp", ypose 0 0 9); ("device_info", YMap [("device", YStr "gripper")])])]%string.
Definition ydoc (chains : list yv) : yv :=
  YMap [("chains", YList chains); ("joint_info", YList [yjoint "revolute" "turn" (-1) 1; yjoint "prismatic" "slide" 0 2]);
        ("device_info", YMap [("device_origin_pose", YMap [("pose", ypose 4 5 6)])])]%string.
Definition Tz (x y z : R) : transform := Tf (q2R (Q4 1 0 0 0)) (V3 x y z) None None.
Definition yrobot (js : list (jtype * string * (R * R))) : robot :=
  Rb (repeat (V3 0 0 1) (List.length js)) (repeat (V3 1 2 3) (S (List.length js))) (map (fun j => fst (fst j)) js)
     (Some (map (fun j => fst (snd j)) js)) (Some (map (fun j => snd (snd j)) js)) (Some (repeat 5 (List.length js)))
     (Some (repeat (1/2) (List.length js))) None (Some (q2R (Q4 1 0 0 0))) (Some (V3 0 0 9)) (Some (map (fun j => snd (fst j)) js))
     (Some "base"%string) (Some "gripper"%string) (Some (Tz 0 0 7)) (Some (Tz 4 5 6)).
Ltac yk := eexists; split; reflexivity.
Lemma yvec_says x y z : says_vec no_parse (yvec x y z) (V3 (IZR x) (IZR y) (IZR z)).
Proof. repeat split; eexists; (split; [yk|]); repeat constructor. Qed.
Lemma ypose_says x y z : says_transform no_parse (ypose x y z) (Tz (IZR x) (IZR y) (IZR z)).
Proof.
  exists (YMap [("w", YInt 1); ("x", YInt 0); ("y", YInt 0); ("z", YInt 0)]%string), (yvec x y z), (Q4 1 0 0 0).
  split; [repeat split; eexists; (split; [yk|]); repeat constructor|]. split; [apply yvec_says|]. split; [reflexivity|].
  left. split; yk.
Qed.
Lemma repeat_Forall2 {A B} (P : A -> B -> Prop) a b n : P a b -> Forall2 P (repeat a n) (repeat b n).
Proof. intros H. induction n; simpl; constructor; auto. Qed.
Lemma near_z : Rabs (norm (V3 0 0 1) - 1) <= 1/100000000 + 1/100000.
Proof.
  assert (E : norm (V3 0 0 1) = 1). { unfold norm, norm2, dot. cbn [vx vy vz]. replace (0*0+0*0+1*1) with 1 by ring. apply sqrt_1. }
  rewrite E. replace (1 - 1) with 0 by ring. rewrite Rabs_R0. lra.
Qed.
Lemma ydoc_says cs ns vs js : List.length ns = List.length js ->
  says_joints no_parse vs (map (fun j => fst (fst j)) js) (map (fun j => fst (snd j)) js) (map (fun j => snd (snd j)) js)
    (repeat 5 (List.length js)) (repeat (1/2) (List.length js)) (map (fun j => snd (fst j)) js) ->
  says_robot no_parse (ydoc cs) (ychain ns) vs (yrobot js).
Proof.
  intros L Sj. unfold yrobot.
  constructor; cbn [rH rP rtype rlower rupper rvel racc rM rRtool rptool rnames rroot rtip rflange rbase].
  - do 2 eexists. split; [yk|]. split; [left; reflexivity|]. rewrite L. apply repeat_Forall2, (yvec_says 0 0 1).
  - eexists. split; [yk|]. rewrite L. apply repeat_Forall2, (yvec_says 1 2 3).
  - do 5 eexists. split; [exact Sj|]. repeat split.
  - reflexivity.
  - right. eexists. split; [yk|]. right. eexists. split; [constructor|]. right. split; [discriminate|]. exists "base"%string. split; auto. right. yk.
  - do 2 eexists. split; [yk|]. split; [apply (ypose_says 0 0 7)|reflexivity].
  - exists YNull, None. eexists. split; [yk|]. split; [left; auto|]. split; [left; yk|]. right. eexists. split; [left; yk|].
    right. exists (Tz 0 0 9). eexists. split; [discriminate|]. split; [apply (ypose_says 0 0 9)|]. split; [reflexivity|]. split; [reflexivity|].
    split; [left; yk|]. right. exists (YStr "gripper"), "gripper"%string. split; [yk|]. split; [left; reflexivity|reflexivity].
  - eexists. split; [left; yk|]. right. eexists. split; [left; yk|]. right. exists (ypose 4 5 6), (Tz 4 5 6).
    split; [yk|]. split; [apply (ypose_says 4 5 6)|reflexivity].
  - rewrite !repeat_length, map_length. auto.
  - apply Forall_forall. intros h Hh. apply repeat_spec in Hh. subst h. exact near_z.
Qed.
Lemma turn_says : says_joint no_parse (yjoint "revolute" "turn" (-1) 1) Rotary (-1) 1 5 (1/2) "turn".
Proof.
  split; [|split].
  - exists "revolute"%string. split; [yk|]. auto.
  - eexists. split; [yk|]. repeat split; eexists; (split; [yk|]); repeat constructor.
  - eexists. split; [yk|]. right. split; [discriminate|]. left; reflexivity.
Qed.
Lemma slide_says : says_joint no_parse (yjoint "prismatic" "slide" 0 2) Prismatic 0 2 5 (1/2) "slide".
Proof.
  split; [|split].
  - exists "prismatic"%string. split; [yk|]. auto.
  - eexists. split; [yk|]. repeat split; eexists; (split; [yk|]); repeat constructor.
  - eexists. split; [yk|]. right. split; [discriminate|]. left; reflexivity.
Qed.
Definition j_turn : jtype * string * (R * R) := (Rotary, "turn"%string, (-1, 1)).
Definition j_slide : jtype * string * (R * R) := (Prismatic, "slide"%string, (0, 2)).
(** one chain of both joints *)
Lemma load_both : load_robot_info no_parse (ydoc [ychain [0; 1]%nat]) 0 = Ok (Fin (yrobot [j_turn; j_slide])).
Proof.
  apply load_iff. exists (ychain [0; 1]%nat), 2%nat, [yjoint "revolute" "turn" (-1) 1; yjoint "prismatic" "slide" 0 2].
  split; [exists [ychain [0;1]%nat], 0%nat; split; [yk|]; split; [reflexivity|left; reflexivity]|].
  split; [eexists; split; [yk|]; split; [apply (size_list [_; _])|]|].
  - intros i Hi. assert (i = 1)%nat as -> by lia. do 7 eexists. split; [reflexivity|]. split; [reflexivity|]. split; [reflexivity|].
    split; [constructor|]. split; [constructor|]. split; [simpl; lra|]. split; [yk|]. split; [apply (size_list [_; _])|]. simpl; lra.
  - split; [split; [reflexivity|right; eexists; split; [yk|reflexivity]]|].
    apply ydoc_says; [reflexivity|]. apply sj_cons; [exact turn_says|]. apply sj_cons; [exact slide_says|]. apply sj_nil.
Qed.
(** a one-joint chain, whatever its joint number *)
Lemma load_single cs k n : nth_error cs k = Some (ychain [n]) ->
  load_robot_info no_parse (ydoc cs) (Z.of_nat k) = Ok (Fin (yrobot [j_turn])).
Proof.
  intros N. apply load_iff. exists (ychain [n]), 1%nat, [yjoint "revolute" "turn" (-1) 1].
  split; [exists cs, k; split; [yk|]; split; [exact N|left; reflexivity]|].
  split; [eexists; split; [yk|]; split; [apply (size_list [_])|]; intros i Hi; lia|].
  split; [split; [reflexivity|right; eexists; split; [yk|reflexivity]]|].
  apply ydoc_says; [reflexivity|]. apply sj_cons; [exact turn_says|]. apply sj_nil.
Qed.

(* ================= C53 ================= *)
Lemma chain_picks doc c ch ch' : chain_at doc c ch -> picks doc (Z.of_nat c) ch' -> ch' = ch.
Proof.
  intros (cs & K & N) (cs' & k & K' & N' & [C|[C _]]); [|lia].
  pose proof (at_key_fun _ _ _ _ K K') as E. injection E as <-. apply Nat2Z.inj in C. subst. congruence.
Qed.
Lemma numbers_size doc ch ns n : joint_numbers doc ch ns -> accepted_numbers doc ch n -> n = List.length ns.
Proof.
  intros K (nums & K' & Sz & _). rewrite (at_key_fun _ _ _ _ K' K) in Sz. inversion Sz. apply map_length.
Qed.
(** What is loaded comes from the first entries of joint_info... *)
Theorem C53_first : forall parse doc c ch ns infos r,
  chain_at doc c ch -> joint_numbers doc ch ns -> joint_info doc infos ->
  load_robot_info parse doc (Z.of_nat c) = Ok (Fin r) ->
  says_robot parse doc ch (firstn (List.length ns) infos) r.
Proof.
  intros parse doc c ch ns infos r Ch Jn Ji E. apply load_iff in E. destruct E as (ch' & n & vs & Pk & An & (Lv & Fv) & Sr).
  pose proof (chain_picks _ _ _ _ Ch Pk) as ->. pose proof (numbers_size _ _ _ _ Jn An) as ->.
  destruct Fv as [Z|(l & Jl & Fl)].
  - rewrite Z. cbn [firstn]. rewrite Z in Lv. destruct vs; [|discriminate]. exact Sr.
  - unfold joint_info in *. pose proof (at_key_fun _ _ _ _ Ji Jl) as X. injection X as <-. rewrite Fl. exact Sr.
Qed.
(** ...which are the chain's own joints when they are numbered 0, 1, 2, ... *)
Theorem C53_own_partial : forall parse doc c ch n infos own r,
  chain_at doc c ch -> joint_numbers doc ch (seq 0 n) -> joint_info doc infos -> own_infos infos (seq 0 n) own ->
  load_robot_info parse doc (Z.of_nat c) = Ok (Fin r) ->
  says_robot parse doc ch own r.
Proof.
  intros parse doc c ch n infos own r Ch Jn Ji Ow E.
  pose proof (C53_first _ _ _ _ _ _ _ Ch Jn Ji E) as Sr. rewrite seq_length in Sr.
  assert (X : firstn n infos = own); [|rewrite X in Sr; exact Sr]. clear -Ow.
  assert (L : List.length own = n) by (pose proof (Forall2_len _ _ _ Ow) as L; rewrite seq_length in L; auto).
  apply nth_ext_error. intros i. destruct (lt_dec i n) as [H|H].
  - rewrite nth_firstn by auto.
    assert (G : forall k m l, Forall2 (fun n v => nth_error infos n = Some v) (seq k m) l -> forall i, (i < m)%nat -> nth_error l i = nth_error infos (k + i)).
    { intros k m. revert k. induction m as [|m IH]; intros k l F j Hj; [lia|]. cbn [seq] in F. inversion F; subst.
      destruct j as [|j]; cbn [nth_error]; [rewrite Nat.add_0_r; auto|]. rewrite (IH (S k) l') by (auto; lia). f_equal. lia. }
    rewrite (G 0%nat n own Ow i H). reflexivity.
  - rewrite (proj2 (nth_error_None own i)) by lia. apply nth_error_None. pose proof (firstn_le_length n infos). lia.
Qed.
(** Otherwise the entries of other joints are read: the second chain's own joint slides,
    the loaded robot turns. *)
Theorem C53_refuted : exists doc ch infos own r,
  chain_at doc 1 ch /\ joint_numbers doc ch [1]%nat /\ joint_info doc infos /\ own_infos infos [1]%nat own /\
  load_robot_info no_parse doc 1 = Ok (Fin r) /\ rtype r = [Rotary] /\ rnames r = Some ["turn"%string] /\
  (forall r', says_robot no_parse doc ch own r' -> rtype r' = [Prismatic] /\ rnames r' = Some ["slide"%string]).
Proof.
  exists (ydoc [ychain [0]%nat; ychain [1]%nat]), (ychain [1]%nat).
  exists [yjoint "revolute" "turn" (-1) 1; yjoint "prismatic" "slide" 0 2], [yjoint "prismatic" "slide" 0 2], (yrobot [j_turn]).
  split; [eexists; split; [yk|reflexivity]|]. split; [yk|]. split; [yk|].
  split; [repeat constructor|]. split; [apply (load_single _ 1 1); reflexivity|].
  split; [reflexivity|]. split; [reflexivity|].
  intros r' Sr. destruct (sr_joints _ _ _ _ _ Sr) as (lo & up & ve & ac & ns & Sj & _ & _ & _ & _ & Ens).
  rewrite Ens. inversion Sj as [|v vs ty tys a los b ups c0 ves d acs n ns' Sv Sj']; subst. inversion Sj'; subst.
  destruct Sv as ((t & (m & X & Y) & Ht) & _ & (i & (m' & X' & Y') & Hi)). injection X as <-. injection X' as <-.
  cbn in Y, Y'. injection Y as <-. injection Y' as <-.
  destruct Ht as [[E _]|[_ ->]]; [discriminate|]. destruct Hi as [[E _]|[_ [E|(m' & E & _)]]]; [discriminate| |discriminate].
  injection E as <-. auto.
Qed.
Example C53_ex : let doc := ydoc [ychain [0; 1]%nat] in
  chain_at doc 0 (ychain [0; 1]%nat) /\ joint_numbers doc (ychain [0; 1]%nat) (seq 0 2) /\
  exists infos own, joint_info doc infos /\ own_infos infos (seq 0 2) own /\
  load_robot_info no_parse doc 0 = Ok (Fin (yrobot [j_turn; j_slide])).
Proof.
  cbv zeta. split; [eexists; split; [yk|reflexivity]|]. split; [yk|]. do 2 eexists. split; [yk|].
  split; [|exact load_both]. repeat constructor.
Qed.
Print Assumptions C53_first.
Print Assumptions C53_own_partial.
Print Assumptions C53_refuted.

(* ================= C54 ================= *)
(** Exactly which documents load as which robots. *)
Theorem C54_iff : forall parse doc c r, load_robot_info parse doc c = Ok (Fin r) <->
  exists ch n infos, picks doc c ch /\ accepted_numbers doc ch n /\ first_infos doc n infos /\ says_robot parse doc ch infos r.
Proof. exact load_iff. Qed.
(** Documents as documented load as what they say. *)
Theorem C54_wellformed : forall parse doc c ch ns infos r,
  chain_at doc c ch -> joint_numbers doc ch ns -> increasing ns -> joint_info doc infos ->
  Forall (fun n => (n < List.length infos)%nat) ns ->
  says_robot parse doc ch (firstn (List.length ns) infos) r ->
  load_robot_info parse doc (Z.of_nat c) = Ok (Fin r).
Proof.
  intros parse doc c ch ns infos r (cs & Kc & Nc) Jn Inc Ji Bd Sr. apply load_iff.
  exists ch, (List.length ns), (firstn (List.length ns) infos).
  split; [exists cs, c; auto|]. split.
  - eexists. split; [exact Jn|]. split; [apply len_iff; cbn [len_of]; rewrite map_length; reflexivity|].
    intros i Hi. destruct (nth_error ns (i - 1)) as [a|] eqn:Ea; [|apply nth_error_None in Ea; lia].
    destruct (nth_error ns i) as [b|] eqn:Eb; [|apply nth_error_None in Eb; lia].
    eexists. exists (YInt (Z.of_nat a)), (YInt (Z.of_nat b)), (IZR (Z.of_nat a)), (IZR (Z.of_nat b)), (YList infos), (List.length infos).
    split; [reflexivity|]. split; [apply (map_nth_error (fun n => YInt (Z.of_nat n)) _ _ Ea)|]. split; [apply (map_nth_error (fun n => YInt (Z.of_nat n)) _ _ Eb)|].
    split; [constructor|]. split; [constructor|]. split; [|split; [exact Ji|split; [constructor|]]].
    + apply IZR_lt. apply Nat2Z.inj_lt. apply (Inc (i - 1)%nat); auto. replace (S (i - 1)) with i by lia. auto.
    + rewrite <- INR_IZR_INZ. apply lt_INR. rewrite Forall_forall in Bd. apply Bd. apply (nth_error_In _ _ Eb).
  - split; [|exact Sr]. split.
    + apply firstn_length_le.
      (* strictly increasing numbers below the length *)
      assert (G : forall i a, nth_error ns i = Some a -> (i <= a)%nat).
      { induction i as [|i IH]; intros a Ha; [lia|]. destruct (nth_error ns i) as [a'|] eqn:E.
        - pose proof (Inc i a' a E Ha). specialize (IH a' eq_refl). lia.
        - apply nth_error_None in E. assert (S i < List.length ns)%nat by (apply nth_error_Some; congruence). lia. }
      destruct ns as [|n0 ns']; [simpl; lia|]. set (l := n0 :: ns') in *.
      destruct (nth_error l (List.length l - 1)) as [a|] eqn:Ea; [|apply nth_error_None in Ea; simpl in Ea; lia].
      pose proof (G _ _ Ea). rewrite Forall_forall in Bd. pose proof (Bd a (nth_error_In _ _ Ea)). lia.
    + right. eauto.
Qed.
(** Whatever loads, even with a NaN in it, has the required entries, lengths, joint types
    and limits. *)
Theorem C54_rejects : forall parse doc c x, load_robot_info parse doc c = Ok x ->
  exists ch n Hv Pv infos fid fp,
    picks doc c ch /\ accepted_numbers doc ch n /\ at_key ch "H" Hv /\ size Hv n /\ at_key ch "P" Pv /\ size Pv (S n) /\
    first_infos doc n infos /\
    Forall (fun j => (exists t, at_key j "joint_type" (YStr t) /\ (t = "revolute"%string \/ t = "prismatic"%string)) /\
      (exists l, at_key j "joint_limits" l /\ l <> YNull /\
         forall k, In k ["lower"; "upper"; "velocity"; "acceleration"]%string -> exists v, at_key l k v) /\
      exists i, at_key j "joint_identifier" i) infos /\
    at_key ch "flange_identifier" fid /\ at_key ch "flange_pose" fp.
Proof.
  intros parse doc c x H. unfold load_robot_info in H.
  apply bind_iff in H. destruct H as (chains & Kc & H). apply bind_iff in H. destruct H as ([] & Ck & H).
  apply bind_iff in H. destruct H as (nc & Lc & H). destruct (_ <=? _)%Z eqn:Cc; [discriminate|].
  apply bind_iff in H. destruct H as (ch & Ic & H). apply bind_iff in H. destruct H as (nums & Kn & H).
  apply bind_iff in H. destruct H as (n & Ln & H). apply bind_iff in H. destruct H as ([] & Cn & H).
  apply bind_iff in H. destruct H as (Hv & KH & H). apply bind_iff in H. destruct H as ([] & LH & H).
  apply bind_iff in H. destruct H as (Pv & KP & H). apply bind_iff in H. destruct H as ([] & LP & H).
  apply bind_iff in H. destruct H as (H0 & EH & H). apply bind_iff in H. destruct H as (P0 & EP & H).
  apply bind_iff in H. destruct H as (joints & EJ & H). apply bind_iff in H. destruct H as (links & Klk & H).
  apply bind_iff in H. destruct H as (root & Er & H). apply bind_iff in H. destruct H as (fid & Kfi & H).
  apply bind_iff in H. destruct H as (ftip & Eft & H). apply bind_iff in H. destruct H as (fp & Kfp & H). clear H.
  assert (MC : exists m, ch = YMap m) by (apply key_iff in Kn; destruct Kn as (m & -> & _); eauto).
  apply check_list_iff, len_iff in LH. apply check_list_iff, len_iff in LP. apply key_iff in KH. apply key_iff in KP.
  apply key_iff in Kfi. apply key_iff in Kfp.
  assert (G : forall k js, Forall2 (fun i j => load_entry parse doc i = Ok j) (seq k n) js -> exists vs, List.length vs = n /\
    (forall i, (i < n)%nat -> exists l, joint_info doc l /\ nth_error vs i = nth_error l (k + i)) /\
    Forall (fun j => (exists t, at_key j "joint_type" (YStr t) /\ (t = "revolute"%string \/ t = "prismatic"%string)) /\
      (exists l, at_key j "joint_limits" l /\ l <> YNull /\
         forall k, In k ["lower"; "upper"; "velocity"; "acceleration"]%string -> exists v, at_key l k v) /\
      exists i, at_key j "joint_identifier" i) vs).
  { clear. induction n as [|n IH]; intros k js F.
    - exists []. split; [reflexivity|]. split; [intros; lia|constructor].
    - cbn [seq] in F. inversion F as [|? j ? js' E F']; subst. destruct (IH (S k) js' F') as (vs & L & N & A).
      unfold load_entry in E. apply bind_iff in E. destruct E as (infos & Ki & E). apply bind_iff in E. destruct E as (v & Ev & E).
      apply bind_iff in E. destruct E as (t & Kt & E). apply bind_iff in E. destruct E as (tz & Et & E).
      apply bind_iff in E. destruct E as (lims & Kl & E). destruct (is_null lims) eqn:NL; [discriminate|].
      apply is_null_false in NL.
      apply bind_iff in E. destruct E as (v1 & K1 & E). apply bind_iff in E. destruct E as (? & _ & E).
      apply bind_iff in E. destruct E as (v2 & K2 & E). apply bind_iff in E. destruct E as (? & _ & E).
      apply bind_iff in E. destruct E as (v3 & K3 & E). apply bind_iff in E. destruct E as (? & _ & E).
      apply bind_iff in E. destruct E as (v4 & K4 & E). apply bind_iff in E. destruct E as (? & _ & E).
      apply bind_iff in E. destruct E as (id & Kid & E).
      apply key_iff in Ki, Kt, Kl, K1, K2, K3, K4, Kid.
      assert (EL : exists l, infos = YList l).
      { destruct Kt as (m & -> & _). destruct infos; try discriminate; eauto. simpl in Ev. destruct (py_index _ _); discriminate. }
      destruct EL as (l & ->). apply item_list in Ev.
      exists (v :: vs). split; [simpl; auto|]. split.
      + intros [|i] Hi; [exists l; rewrite Nat.add_0_r; auto|].
        destruct (N i ltac:(lia)) as (l' & J' & N'). exists l'. split; auto. cbn [nth_error]. rewrite N'. f_equal. lia.
      + constructor; auto. split; [|split; [|eauto]].
        * destruct t as [| | |t| |]; try discriminate. exists t. split; auto.
          destruct (String.eqb_spec t "revolute"); auto. destruct (String.eqb_spec t "prismatic"); auto. discriminate.
        * exists lims. split; auto. split; auto. intros k' [<-|[<-|[<-|[<-|[]]]]]; eauto. }
  apply map_out_Forall2 in EJ. destruct (G 0%nat joints EJ) as (vs & Lv & Nv & A).
  exists ch, n, Hv, Pv, vs, fid, fp.
  split; [apply picks_iff; auto; exists chains, nc; auto|].
  split; [exists nums; split; [apply key_iff; auto|]; split; [apply len_iff; auto|apply check_numbers_checked; auto]|].
  repeat (split; [assumption|]). split; [apply infos_first; auto|]. auto.
Qed.
(** The first joint number is not checked, nor is a negative chain number. *)
Theorem C54_refuted :
  (exists doc ch r, chain_at doc 0 ch /\ joint_numbers doc ch [7]%nat /\
     (exists infos, joint_info doc infos /\ List.length infos = 2%nat) /\ load_robot_info no_parse doc 0 = Ok (Fin r)) /\
  (exists doc r, load_robot_info no_parse doc (-1) = Ok (Fin r)).
Proof.
  split.
  - exists (ydoc [ychain [7]%nat]), (ychain [7]%nat), (yrobot [j_turn]).
    split; [eexists; split; [yk|reflexivity]|]. split; [yk|]. split; [eexists; split; [yk|reflexivity]|].
    apply (load_single _ 0 7). reflexivity.
  - exists (ydoc [ychain [0]%nat]), (yrobot [j_turn]). apply load_iff.
    exists (ychain [0]%nat), 1%nat, [yjoint "revolute" "turn" (-1) 1].
    split; [exists [ychain [0]%nat], 0%nat; split; [yk|]; split; [reflexivity|right; split; [lia|reflexivity]]|].
    split; [eexists; split; [yk|]; split; [apply (size_list [_])|]; intros i Hi; lia|].
    split; [split; [reflexivity|right; eexists; split; [yk|reflexivity]]|].
    apply ydoc_says; [reflexivity|]. apply sj_cons; [exact turn_says|]. apply sj_nil.
Qed.
(** A null number is not rejected either: it is loaded as NaN (here an upper limit). *)
Definition ydoc_null : yv :=
  YMap [("chains", YList [ychain [0]%nat]); ("joint_info", YList
    [YMap [("joint_identifier", YStr "turn"); ("joint_type", YStr "revolute");
           ("joint_limits", YMap [("lower", YInt 0); ("upper", YNull); ("velocity", YInt 5); ("acceleration", YInt 1)])]])]%string.
Theorem C54_null_refuted : load_robot_info no_parse ydoc_null 0 = Ok NaN.
Proof.
  lazy -[Robot_init Rabs q2R Rdiv IZR vzero].
  match goal with |- context [Robot_init ?a] =>
    change a with (full_args [V3 0 0 1] [vzero; vzero] [Rotary] [0] [0] [5] [1] None ["turn"%string] (Some "base"%string) (Some "gripper"%string) None None);
    assert (E : exists r, Robot_init (full_args [V3 0 0 1] [vzero; vzero] [Rotary] [0] [0] [5] [1] None ["turn"%string] (Some "base"%string) (Some "gripper"%string) None None) = Ok r)
  end.
  { eexists. apply Robot_init_full. split; [|reflexivity]. repeat (split; [reflexivity|]). constructor; [exact near_z|constructor]. }
  destruct E as (r & ->). reflexivity.
Qed.
Example C54_ex : let doc := ydoc [ychain [0; 1]%nat] in
  chain_at doc 0 (ychain [0; 1]%nat) /\ joint_numbers doc (ychain [0; 1]%nat) [0; 1]%nat /\ increasing [0; 1]%nat /\
  exists infos, joint_info doc infos /\ Forall (fun n => (n < List.length infos)%nat) [0; 1]%nat /\
    says_robot no_parse doc (ychain [0; 1]%nat) (firstn 2 infos) (yrobot [j_turn; j_slide]).
Proof.
  cbv zeta. split; [eexists; split; [yk|reflexivity]|]. split; [yk|].
  split. { intros [|[|i]] a b A B; cbn in A, B; try discriminate; try (destruct i; discriminate). injection A as <-. injection B as <-. lia. }
  eexists. split; [yk|]. split; [repeat constructor|].
  apply ydoc_says; [reflexivity|]. apply sj_cons; [exact turn_says|]. apply sj_cons; [exact slide_says|]. apply sj_nil.
Qed.
Print Assumptions C54_iff.
Print Assumptions C54_wellformed.
Print Assumptions C54_rejects.
Print Assumptions C54_refuted.
Print Assumptions C54_null_refuted.

(* ================= C55 ================= *)
Definition with_tool (r : robot) (T : transform) (tip : string) : robot :=
  Rb (rH r) (rP r) (rtype r) (rlower r) (rupper r) (rvel r) (racc r) (rM r) (Some (tR T)) (Some (tp T))
     (rnames r) (rroot r) (Some tip) (rflange r) (rbase r).
Theorem C55_iff : forall parse doc tool c r', load_robot_and_tool_info parse doc tool c = Ok (Fin r') <->
  exists r T tip tcp info dev, load_robot_info parse doc c = Ok (Fin r) /\
    at_key tool "tcp" tcp /\ says_transform parse tcp T /\ at_key tool "device_info" info /\ at_key info "device" dev /\
    says_name dev tip /\ r' = with_tool r T tip.
Proof.
  intros parse doc tool c r'. unfold load_robot_and_tool_info. split.
  - intros H. apply bind_iff in H. destruct H as (x & El & H). apply bind_iff in H. destruct H as (tcp & Kt & H).
    apply bind_iff in H. destruct H as (T & ET & H). apply bind_iff in H. destruct H as (info & Ki & H).
    apply bind_iff in H. destruct H as (dev & Kd & H). apply bind_iff in H. destruct H as (tip & En & H).
    injection H as H. apply flt_bind_fin in H. destruct H as (r & -> & H). apply flt_bind_fin in H. destruct H as (T' & -> & H).
    injection H as <-. exists r, T', tip, tcp, info, dev. apply key_iff in Kt, Ki, Kd. apply to_transform_iff in ET.
    apply name_iff in En. repeat (split; [assumption|]). reflexivity.
  - intros (r & T & tip & tcp & info & dev & El & Kt & ST & Ki & Kd & Sn & ->). rewrite El. cbn [bind].
    rewrite (proj2 (key_iff _ _ _) Kt). cbn [bind]. rewrite (proj2 (to_transform_iff _ _ _) ST). cbn [bind].
    rewrite (proj2 (key_iff _ _ _) Ki). cbn [bind]. rewrite (proj2 (key_iff _ _ _) Kd). cbn [bind].
    rewrite (proj2 (name_iff _ _) Sn). reflexivity.
Qed.
(** In terms of motions: the new tool replaces the old one behind the same arm. *)
Theorem C55_motion : forall parse doc tool c r', load_robot_and_tool_info parse doc tool c = Ok (Fin r') ->
  exists r T, load_robot_info parse doc c = Ok (Fin r) /\
    forall theta x y, act_tool r y = act T x -> robot_point r' theta x = robot_point r theta y.
Proof.
  intros parse doc tool c r' E. apply C55_iff in E. destruct E as (r & T & tip & tcp & info & dev & El & _ & _ & _ & _ & _ & ->).
  exists r, T. split; [exact El|]. intros theta x y Hy. unfold robot_point. cbn [with_tool rbase rP rtype rH rflange].
  rewrite Hy. reflexivity.
Qed.
(** The robot document's errors come first; a robot is loaded only if the robot document
    alone loads. *)
Theorem C55_errors : forall parse doc tool c e, load_robot_info parse doc c = Err e ->
  load_robot_and_tool_info parse doc tool c = Err e.
Proof. intros parse doc tool c e E. unfold load_robot_and_tool_info. rewrite E. reflexivity. Qed.
Definition ytool : yv := YMap [("tcp", ypose 0 0 11); ("device_info", YMap [("device", YMap [("name", YStr "welder")])])]%string.
Example C55_ex : load_robot_and_tool_info no_parse (ydoc [ychain [0; 1]%nat]) ytool 0 =
  Ok (Fin (with_tool (yrobot [j_turn; j_slide]) (Tz 0 0 11) "welder")).
Proof.
  apply C55_iff. exists (yrobot [j_turn; j_slide]), (Tz 0 0 11), "welder"%string. do 3 eexists.
  split; [exact load_both|]. split; [yk|]. split; [apply (ypose_says 0 0 11)|]. split; [yk|]. split; [yk|]. split; [right; yk|reflexivity].
Qed.
Print Assumptions C55_iff.
Print Assumptions C55_motion.
Print Assumptions C55_errors.

(* ================= C71 ================= *)
(** A loaded robot whose axes are exact unit vectors meets the requirements of the forward
    kinematics theorems: its pose composes the document's joints. *)
Lemma loaded_wf parse doc c r : load_robot_info parse doc c = Ok (Fin r) -> Forall unit3 (rH r) -> wf_robot r.
Proof.
  intros E U. apply load_iff in E. destruct E as (ch & n & infos & _ & _ & _ & Sr).
  destruct (sr_joints _ _ _ _ _ Sr) as (lo & up & ve & ac & ns & Sj & Elo & Eup & _).
  destruct (sr_shape _ _ _ _ _ Sr) as (L1 & L2). pose proof (says_joints_len _ _ _ _ _ _ _ _ Sj) as (J1 & J2 & J3 & _).
  constructor; auto.
  - intros l El. rewrite Elo in El. injection El as <-. congruence.
  - intros l El. rewrite Eup in El. injection El as <-. congruence.
Qed.
Theorem C71_fwdkin : forall parse doc c r theta, load_robot_info parse doc c = Ok (Fin r) -> Forall unit3 (rH r) ->
  List.length theta = List.length (rtype r) -> within_limits r theta ->
  exists T, fwdkin r theta false = Ok T /\ forall x, act T x = robot_point r theta x.
Proof.
  intros parse doc c r theta E U L I. destruct (C20_fwdkin_chain r theta (loaded_wf _ _ _ _ E U) L I) as (T & F & _ & A). eauto.
Qed.
(** All joints are rotary or prismatic and have limits. *)
Theorem C71_limits : forall parse doc c r, load_robot_info parse doc c = Ok (Fin r) ->
  exists lo up, rlower r = Some lo /\ rupper r = Some up /\
    List.length lo = List.length (rtype r) /\ List.length up = List.length (rtype r) /\ Forall plain_type (rtype r).
Proof.
  intros parse doc c r E. apply load_iff in E. destruct E as (ch & n & infos & _ & _ & _ & Sr).
  destruct (sr_joints _ _ _ _ _ Sr) as (lo & up & ve & ac & ns & Sj & Elo & Eup & _).
  pose proof (says_joints_len _ _ _ _ _ _ _ _ Sj) as (J1 & J2 & J3 & _).
  exists lo, up. split; [auto|]. split; [auto|]. split; [congruence|]. split; [congruence|].
  clear -Sj. induction Sj as [|v vs ty tys lo los up ups ve ves ac acs n ns Sv Sj IH]; constructor; auto.
  destruct Sv as ((t & _ & [[_ ->]|[_ ->]]) & _); [left|right]; reflexivity.
Qed.
Example C71_ex : load_robot_info no_parse (ydoc [ychain [0; 1]%nat]) 0 = Ok (Fin (yrobot [j_turn; j_slide])) /\
  Forall unit3 (rH (yrobot [j_turn; j_slide])) /\ within_limits (yrobot [j_turn; j_slide]) [1/2; 1].
Proof.
  split; [exact load_both|]. split.
  - repeat constructor; unfold unit3; la_unfold; lra.
  - unfold within_limits. cbn. split; (constructor; [lra|constructor; [lra|constructor]]).
Qed.
Print Assumptions C71_fwdkin.
Print Assumptions C71_limits.
