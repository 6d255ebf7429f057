(** Property C105: several robots in one environment. *)
From Coq Require Import Reals ZArith Ascii String List Bool Lia Lra DecimalString.
From Verif Require Import LinAlg RealAux Py FactsReal FactsLinAlg SpecRot ModelRot ModelTransform ModelRobot ModelKin SpecKin FactsKin PropKin.
From Verif Require Import ModelTess ModelTess2 ModelTess3 SpecTess SpecCell FactsTess FactsTessEnv PropTess PropTess2 PropTessIk.
Import ListNotations.
Open Scope R_scope.

(* ---- names ---- *)
Lemma split_ (a b x y : string) : (a ++ String "_" x = b ++ String "_" y)%string ->
  a = b /\ x = y \/ (exists m, b = a ++ String "_" m /\ x = m ++ String "_" y)%string \/ (exists m, a = b ++ String "_" m /\ y = m ++ String "_" x)%string.
Proof.
  revert b. induction a as [|c a IH]; intros [|c' b] E; cbn [append] in E.
  - injection E as ->. auto.
  - injection E as <- ->. right. left. exists b. auto.
  - injection E as -> <-. right. right. exists a. auto.
  - injection E as -> E. destruct (IH b E) as [(-> & ->)|[(m & -> & ->)|(m & -> & ->)]]; auto.
    + right. left. exists m. auto.
    + right. right. exists m. auto.
Qed.
Lemma plain_no a x y : plain_name a -> a = (x ++ String "_" y)%string -> False.
Proof. revert x. induction a as [|c a IH]; intros [|c' x] P E; try discriminate E; cbn [append] in E; injection E as -> E; destruct P as (N & P); [apply N; reflexivity | exact (IH x P E)]. Qed.
Lemma digits_plain n : plain_name (str_nat n).
Proof. unfold str_nat. generalize (Nat.to_uint n). induction u as [|u IH|u IH|u IH|u IH|u IH|u IH|u IH|u IH|u IH|u IH]; cbn [NilEmpty.string_of_uint plain_name]; [exact I|split; [discriminate|exact IH]..]. Qed.
Definition after_ (s : string) : Prop := exists k, s = str_nat k \/ s = "link"%string \/ s = "tip"%string \/ s = "tcp"%string.
Lemma links_in r l : In l (graph_links r) -> In l ["base_link"; "chain_tip"; "flange"; "tool_tcp"]%string \/ exists k, l = link_name k.
Proof.
  unfold graph_links, flange_links, tool_links. intros [<-|I]; [left; left; reflexivity|]. apply in_app_or in I. destruct I as [I|I].
  - apply in_map_iff in I. destruct I as (k & <- & _). right. exists k. reflexivity.
  - left. destruct (rflange r), (rRtool r), (rptool r); cbn [app In] in *; tauto.
Qed.
Lemma link_after r l m s : In l (graph_links r) -> l = (m ++ String "_" s)%string -> after_ s.
Proof.
  assert (K : forall p t, plain_name p -> plain_name t -> forall m s, (p ++ String "_" t = m ++ String "_" s)%string -> s = t).
  { intros p t Pp Pt m' s' E. destruct (split_ _ _ _ _ E) as [(_ & ->)|[(m0 & _ & E2)|(m0 & E2 & _)]]; auto; exfalso; [exact (plain_no _ _ _ Pt E2) | exact (plain_no _ _ _ Pp E2)]. }
  intros I E. apply links_in in I. destruct I as [[<-|[<-|[<-|[<-|[]]]]]|(k & ->)].
  - exists 0%nat. right. left. eapply (K "base"%string "link"%string); [cbn; repeat split; discriminate..|exact E].
  - exists 0%nat. right. right. left. eapply (K "chain"%string "tip"%string); [cbn; repeat split; discriminate..|exact E].
  - exfalso. apply (plain_no "flange"%string m s); [cbn; repeat split; discriminate|exact E].
  - exists 0%nat. right. right. right. eapply (K "tool"%string "tcp"%string); [cbn; repeat split; discriminate..|exact E].
  - exists k. left. eapply (K "link"%string (str_nat k)); [cbn; repeat split; discriminate|apply digits_plain|exact E].
Qed.
Lemma after_no r l : In l (graph_links r) -> ~ after_ l.
Proof.
  intros I (k & A). apply links_in in I.
  assert (D : forall n c s, str_nat n = String c s -> In c ["0";"1";"2";"3";"4";"5";"6";"7";"8";"9"]%char).
  { intros n c s. unfold str_nat. destruct (Nat.to_uint n); cbn [NilEmpty.string_of_uint]; intros E; try discriminate E; injection E as <- _; cbn [In]; tauto. }
  destruct I as [[<-|[<-|[<-|[<-|[]]]]]|(j & ->)]; destruct A as [A|[A|[A|A]]]; try discriminate A; symmetry in A; apply D in A; cbn [In] in A; intuition discriminate.
Qed.
(** links of robots with different names never clash *)
Lemma links_apart n n' r r' x : n <> n' -> In x (map (pre n) (graph_links r)) -> In x (map (pre n') (graph_links r')) -> False.
Proof.
  intros N I I'. apply in_map_iff in I as (l & <- & I). apply in_map_iff in I' as (l' & E & I'). unfold pre in E. change ("_" ++ l)%string with (String "_" l) in E. change ("_" ++ l')%string with (String "_" l') in E.
  destruct (split_ _ _ _ _ E) as [(C & _)|[(m & _ & C)|(m & _ & C)]]; [auto|..].
  - exact (after_no r l I (link_after r' l' m l I' C)).
  - exact (after_no r' l' I' (link_after r l m l' I C)).
Qed.

(* ---- the shape of a cell ---- *)
Section Cell.
Context (aa : mat3 -> mat3).
Fixpoint cell_links (l : list (string * robot)) : list string :=
  match l with [] => ["world"%string] | (n, r) :: l' => cell_links l' ++ map (pre n) (graph_links r) end.
Definition own_joints (n : string) (r : robot) : list tjoint := map (prefix_joint (n ++ "_")) (all_joints aa r) ++ [get_robot_world_to_base_joint aa r n].
Fixpoint cell_joints (l : list (string * robot)) : list tjoint :=
  match l with [] => [] | (n, r) :: l' => cell_joints l' ++ own_joints n r end.
Lemma own_names n r : graphable r -> map tj_name (own_joints n r) = map (pre n) (moving_joints r ++ fixed_joints r) ++ [("world_to_" ++ n)%string].
Proof. intros G. unfold own_joints. rewrite map_app, prefix_joint_names, all_joint_names by apply (gr_names r G). reflexivity. Qed.
Lemma own_children n r : map tj_child (own_joints n r) = map (pre n) (tl (graph_links r)) ++ [pre n "base_link"].
Proof. exact (env_children aa r n). Qed.
Lemma in_cell_links l x : In x (cell_links l) <-> x = "world"%string \/ exists n r, In (n, r) l /\ In x (map (pre n) (graph_links r)).
Proof.
  induction l as [|(n, r) l IH]; cbn [cell_links].
  - split; [intros [<-|[]]; auto | intros [->|(n & r & [] & _)]; left; reflexivity].
  - rewrite in_app_iff, IH. split.
    + intros [[->|(n' & r' & I & J)]|J]; auto; right; [exists n', r'|exists n, r]; cbn [In]; auto.
    + intros [->|(n' & r' & [[= <- <-]|I] & J)]; auto. left. right. eauto.
Qed.
Lemma in_cell_joints l j : In j (cell_joints l) <-> exists n r, In (n, r) l /\ In j (own_joints n r).
Proof.
  induction l as [|(n, r) l IH]; cbn [cell_joints].
  - split; [intros [] | intros (n & r & [] & _)].
  - rewrite in_app_iff, IH. split.
    + intros [(n' & r' & I & J)|J]; [exists n', r'|exists n, r]; cbn [In]; auto.
    + intros (n' & r' & [[= <- <-]|I] & J); auto. left. eauto.
Qed.
Lemma disjointb_iff a b : disjointb a b = true <-> forall x, In x a -> ~ In x b.
Proof.
  unfold disjointb. rewrite forallb_forall. split; intros H x I.
  - apply mem_str_false. apply negb_true_iff, (H x I).
  - apply negb_true_iff, mem_str_false, H, I.
Qed.
(** adding one robot *)
Lemma attach_iff l n r e : graphable r ->
  attach (SG (cell_links l) (cell_joints l)) (SG (graph_links r) (all_joints aa r)) (get_robot_world_to_base_joint aa r n) (n ++ "_") = Some e <->
  (forall x, In x (map (pre n) (graph_links r)) -> ~ In x (cell_links l)) /\
  (forall x, In x (map (pre n) (moving_joints r ++ fixed_joints r)) -> ~ In x (map tj_name (cell_joints l))) /\
  ~ In ("world_to_" ++ n)%string (map tj_name (cell_joints l)) /\ env_fresh r n /\ e = SG (cell_links ((n, r) :: l)) (cell_joints ((n, r) :: l)).
Proof.
  intros G. unfold attach. cbn [sg_links sg_joints get_robot_world_to_base_joint tj_parent tj_child tj_name].
  rewrite (proj2 (mem_str_iff "world" (cell_links l))) by (apply in_cell_links; auto). rewrite pre_map. rewrite (proj2 (mem_str_iff _ _)).
  2: { apply in_map_iff. exists "base_link"%string. split; [reflexivity|left; reflexivity]. }
  cbn [andb]. unfold insert_graph, prefix_graph. cbn [sg_links sg_joints]. rewrite pre_map, prefix_joint_names, all_joint_names by apply (gr_names r G).
  destruct (disjointb (map (pre n) (graph_links r)) (cell_links l)) eqn:D1; cbn [andb].
  2: { split; [discriminate|]. intros (H & _). apply disjointb_iff in H. rewrite H in D1. discriminate. }
  destruct (disjointb (map (pre n) (moving_joints r ++ fixed_joints r)) (map tj_name (cell_joints l))) eqn:D2; cbn [sg_joints sg_links].
  2: { split; [discriminate|]. intros (_ & H & _). apply disjointb_iff in H. rewrite H in D2. discriminate. }
  pose proof (proj1 (disjointb_iff _ _) D1) as E1. pose proof (proj1 (disjointb_iff _ _) D2) as E2. rewrite map_app, prefix_joint_names, all_joint_names by apply (gr_names r G).
  destruct (mem_str _ _) eqn:M.
  - split; [discriminate|]. intros (_ & _ & N1 & N2 & _). apply mem_str_iff, in_app_or in M. destruct M; contradiction.
  - apply mem_str_false in M. rewrite in_app_iff in M. split.
    + intros [= <-]. split; [exact E1|]. split; [exact E2|]. split; [tauto|]. split; [unfold env_fresh; tauto|]. cbn [cell_links cell_joints]. unfold own_joints. rewrite <- app_assoc. reflexivity.
    + intros (_ & _ & _ & _ & ->). cbn [cell_links cell_joints]. unfold own_joints. rewrite <- app_assoc. reflexivity.
Qed.
Definition info_of (k : kin_info) (n : string) (r : robot) : Prop := k_group k = n /\ k_base k = "world"%string /\ k_tip k = pre n (tip_of r).
Record sound_cell (l : list (string * robot)) (e : sgraph * list kin_info) : Prop := {
  sc_graph : fst e = SG (cell_links l) (cell_joints l);
  sc_robots : Forall (fun m => graphable (snd m)) l;
  sc_links : NoDup (cell_links l);
  sc_names : NoDup (map tj_name (cell_joints l));
  sc_known : forall k, In k (snd e) -> exists n r, In (n, r) l /\ info_of k n r;
  sc_listed : forall n r, In (n, r) l -> exists k, In k (snd e) /\ info_of k n r }.
Lemma cell_sound l e : Forall (fun m => wf_robot (snd m)) l -> cell aa l e -> sound_cell l e.
Proof.
  intros W C. induction C as [n r solver ov (g, ks) links names E|l e n r solver ov cs links names e' C IH E A].
  - apply Forall_inv in W. cbn [snd] in W. apply (env_ok aa r n solver ov g ks links names (wf_H r W) (wf_P r W)) in E. destruct E as (G & F & info & _ & -> & -> & _ & _).
    pose proof (env_unique aa r n) as (U1 & U2). split.
    + reflexivity.
    + constructor; [exact G|constructor].
    + cbn [cell_links app]. constructor; [intros I; apply in_map_iff in I as (s & I & _); revert I; apply pre_not_world|]. apply FinFun.Injective_map_NoDup; [exact (pre_inj n)|apply graph_links_nodup].
    + cbn [cell_joints app]. rewrite own_names by exact G. apply nodup_app. split; [apply FinFun.Injective_map_NoDup; [exact (pre_inj n)|apply (gr_unique r G)]|].
      split; [constructor; [intros []|constructor]|]. intros x [<-|[]]. exact F.
    + intros k [<-|[]]. exists n, r. split; [left; reflexivity|]. repeat split.
    + intros n' r' [[= <- <-]|[]]. eexists. split; [left; reflexivity|]. repeat split.
  - pose proof (Forall_inv W) as Wr. cbn [snd] in Wr. destruct (IH (Forall_inv_tail W)) as [S1 S2 S3 S4 S5 S6].
    apply (commands_ok aa r n false solver ov cs links names (wf_H r Wr) (wf_P r Wr)) in E. destruct E as (G & info & _ & -> & _ & _).
    cbn [app apply_commands apply_command] in A. rewrite S1 in A. destruct (attach _ _ _ _) as [g|] eqn:AT; [|discriminate A]. cbn [apply_commands apply_command fst snd] in A. injection A as <-.
    apply (attach_iff l n r g G) in AT. destruct AT as (D1 & D2 & D3 & F & ->). split.
    + reflexivity.
    + constructor; [exact G|exact S2].
    + cbn [cell_links]. apply nodup_app. split; [exact S3|]. split; [apply FinFun.Injective_map_NoDup; [exact (pre_inj n)|apply graph_links_nodup]|exact D1].
    + cbn [cell_joints]. rewrite map_app, own_names by exact G. apply nodup_app. split; [exact S4|]. split.
      * apply nodup_app. split; [apply FinFun.Injective_map_NoDup; [exact (pre_inj n)|apply (gr_unique r G)]|]. split; [constructor; [intros []|constructor]|]. intros x [<-|[]]. exact F.
      * intros x I. apply in_app_or in I. destruct I as [I|[<-|[]]]; auto.
    + cbn [snd]. intros k I. apply in_app_or in I. destruct I as [I|[<-|[]]].
      * destruct (S5 k I) as (n' & r' & J & K). exists n', r'. split; [right; exact J|exact K].
      * exists n, r. split; [left; reflexivity|]. repeat split.
    + cbn [snd]. intros n' r' [[= <- <-]|I].
      * eexists. split; [apply in_or_app; right; left; reflexivity|]. repeat split.
      * destruct (S6 n' r' I) as (k & J & K). exists k. split; [apply in_or_app; left; exact J|exact K].
Qed.
(** a name appears once *)
Lemma cell_once l e n r r' : sound_cell l e -> In (n, r) l -> In (n, r') l -> r = r'.
Proof.
  intros [_ _ N _ _ _]. clear e. induction l as [|(m, s) l IH]; [intros []|]. cbn [cell_links] in N. apply nodup_app in N as (N1 & _ & D).
  assert (K : forall s', In (m, s') l -> False).
  { intros s' I. apply (D (pre m "base_link")); [apply in_map; left; reflexivity|]. apply in_cell_links. right. exists m, s'. split; [exact I|]. apply in_map. left. reflexivity. }
  intros [[= -> ->]|I] [[= ->]|I']; auto; exfalso; eauto.
Qed.
Lemma cell_children l : map tj_child (cell_joints l) = flat_map (fun m => map (pre (fst m)) (tl (graph_links (snd m))) ++ [pre (fst m) "base_link"]) (rev l).
Proof.
  induction l as [|(n, r) l IH]; [reflexivity|]. cbn [cell_joints rev]. rewrite map_app, flat_map_app, IH, own_children. cbn [flat_map fst snd]. rewrite app_nil_r. reflexivity.
Qed.
Lemma children_unique l : NoDup (cell_links l) -> NoDup (map tj_child (cell_joints l)) /\ ~ In "world"%string (map tj_child (cell_joints l)).
Proof.
  induction l as [|(n, r) l IH]; cbn [cell_links cell_joints].
  - intros _. split; [constructor|intros []].
  - intros N. apply nodup_app in N as (N1 & N2 & D). destruct (IH N1) as (U1 & U2). pose proof (env_unique aa r n) as (V1 & V2).
    assert (CH : forall x, In x (map tj_child (own_joints n r)) -> In x (map (pre n) (graph_links r))).
    { intros x I. rewrite own_children in I. apply in_app_or in I. destruct I as [I|[<-|[]]]; [|apply in_map; left; reflexivity]. apply in_map_iff in I as (s & <- & I). apply in_map. unfold graph_links in *. cbn [tl] in I. right. exact I. }
    assert (CL : forall x, In x (map tj_child (cell_joints l)) -> In x (cell_links l)).
    { intros x I. apply in_map_iff in I as (j & <- & I). apply in_cell_joints in I as (n' & r' & I & J). apply in_cell_links. right. exists n', r'. split; [exact I|].
      apply (in_map tj_child) in J. rewrite own_children in J. apply in_app_or in J. destruct J as [J|[<-|[]]]; [|apply in_map; left; reflexivity]. apply in_map_iff in J as (s & <- & J). apply in_map. unfold graph_links in *. cbn [tl] in J. right. exact J. }
    rewrite map_app. split.
    + apply nodup_app. split; [exact U1|]. split; [exact V1|]. intros x I J. exact (D x (CH x I) (CL x J)).
    + intros I. apply in_app_or in I. destruct I as [I|I]; [exact (U2 I)|exact (V2 I)].
Qed.
Lemma placed_mono g g' q root l f : incl (sg_joints g) (sg_joints g') -> placed g q root l f -> placed g' q root l f.
Proof. intros I P. induction P as [|j f J P IH]; constructor; auto. Qed.
(** nothing hangs on the tip of a robot *)
Lemma tip_last l e n r j : sound_cell l e -> In (n, r) l -> In j (cell_joints l) -> tj_parent j = pre n (tip_of r) -> False.
Proof.
  intros SC I J E. apply in_cell_joints in J as (n' & r' & I' & J).
  assert (T : In (tip_of r) (graph_links r)) by (rewrite <- tip_link_eq; unfold tip_link; unfold graph_links; apply last_in).
  apply in_app_or in J. destruct J as [J|[<-|[]]].
  2: { symmetry in E. revert E. apply pre_not_world. }
  apply in_map_iff in J as (j0 & <- & J). cbn [prefix_joint tj_parent] in E. rewrite append_assoc in E. change (pre n' (tj_parent j0) = pre n (tip_of r)) in E.
  pose proof (proj1 (Forall_forall _ _) (sc_robots l e SC) _ I') as G'. cbn [snd] in G'.
  pose proof (in_row_serial (all_joints aa r') "base_link" _ (in_row_all aa r' (gr_some r' G'))) as SE. rewrite all_children in SE.
  assert (P : In (tj_parent j0, tj_child j0) (serial (graph_links r'))) by (rewrite <- SE; apply (in_map (fun j => (tj_parent j, tj_child j))), J).
  assert (PL : forall a b (s : list string), In (a, b) (serial s) -> In a s).
  { intros a b s. induction s as [|x [|y s] IH]; [intros []|intros []|]. cbn [serial]. intros [[= <- <-]|H]; [left; reflexivity|right; exact (IH H)]. }
  pose proof (PL _ _ _ P) as PI.
  destruct (String.string_dec n' n) as [->|N].
  2: { apply (links_apart n' n r' r (pre n' (tj_parent j0)) N); [apply in_map, PI|]. rewrite E. apply in_map, T. }
  pose proof (cell_once l e n r r' SC I I'). subst r'. apply pre_inj in E. rewrite E in P.
  (* the last link is not a parent *)
  assert (LA : forall (s : list string) b, NoDup s -> ~ In (List.last s ""%string, b) (serial s)).
  { induction s as [|x [|y s] IH]; intros b ND C; [destruct C|destruct C|]. change (List.last (x :: y :: s) ""%string) with (List.last (y :: s) ""%string) in C. cbn [serial] in C. apply NoDup_cons_iff in ND as (N1 & N2).
    destruct C as [C|C]; [|exact (IH b N2 C)]. injection C as C _. apply N1. rewrite C. apply last_in. }
  apply (LA (graph_links r) (tj_child j0) (graph_links_nodup r)). change (List.last (graph_links r) ""%string) with (tip_link r). rewrite tip_link_eq. exact P.
Qed.
End Cell.

(* ---- the theorems ---- *)
Lemma brought_names aa n r x : graphable r -> In x (brought n r) <-> In x (map tj_name (own_joints aa n r)).
Proof. intros G. rewrite (own_names aa n r G), in_app_iff. unfold brought. cbn [In]. change (fun j => n ++ "_" ++ j)%string with (pre n). tauto. Qed.
Lemma shared_tip aa l e n r group g solver : Forall (fun m => wf_robot (snd m)) l ->
  cell aa l e -> In (n, r) l -> group n = Ok g -> group_answer e n g ->
  TesseractRobot_new aa None n solver group (Some e) = Ok (TR (fst e) (snd e) "world" (pre n (tip_of r))).
Proof.
  intros W C I EG (k & Ik & Kn & Eb & Nt & Tips). pose proof (cell_sound aa l e W C) as SC.
  destruct (sc_known aa l e SC k Ik) as (n' & r' & I' & K1 & K2 & K3). rewrite Kn in K1. subst n'. pose proof (cell_once aa l e n r r' SC I I'). subst r'.
  destruct (eg_tips g) as [|t ts] eqn:ET; [contradiction|]. destruct (Tips t (or_introl eq_refl)) as (js & WY).
  assert (Et : t = pre n (tip_of r)).
  { rewrite K3, (sc_graph aa l e SC) in WY. destruct (way_row _ _ _ _ WY) as (RW & IN). destruct js as [|j js]; [symmetry; exact RW|]. destruct RW as (P & _).
    exfalso. exact (tip_last aa l e n r j SC I (IN j (or_introl eq_refl)) P). }
  unfold TesseractRobot_new, TesseractRobot_wrap. rewrite EG. cbn [bind]. rewrite ET. cbn [index nth_error bind]. rewrite Eb, K2, Et. reflexivity.
Qed.
Lemma shared_pose aa l e n r q theta fp : (forall A, is_SO3 A -> aa A = A) -> Forall (fun m => wf_robot (snd m)) l -> wf_aux r -> cell aa l e -> In (n, r) l ->
  assigns q (map (pre n) (moving_joints r)) theta -> placed (fst e) q "world" (pre n (tip_of r)) fp -> forall x, fp x = world_flange r theta (act_tool r x).
Proof.
  intros AA W WA C I AS P x. pose proof (cell_sound aa l e W C) as SC.
  pose proof (proj1 (Forall_forall _ _) W _ I) as Wr. pose proof (proj1 (Forall_forall _ _) (sc_robots aa l e SC) _ I) as G. cbn [snd] in Wr, G.
  destruct (place_tip aa AA r n q theta Wr G WA AS) as (f & Pf & Ef). rewrite <- Ef.
  assert (P' : placed (fst e) q "world" (pre n (tip_of r)) f).
  { eapply placed_mono; [|exact Pf]. rewrite (sc_graph aa l e SC). cbn [sg_joints env_graph]. intros j J. apply in_cell_joints. exists n, r. split; [exact I|exact J]. }
  destruct (children_unique aa l (sc_links aa l e SC)) as (N1 & N2).
  rewrite (sc_graph aa l e SC) in P, P'. exact (placed_unique (SG (cell_links l) (cell_joints aa l)) q "world" N1 N2 _ _ P _ P' x).
Qed.
Lemma shared_tip_in aa l e n r : Forall (fun m => wf_robot (snd m)) l -> cell aa l e -> In (n, r) l -> In (pre n (tip_of r)) (sg_links (fst e)).
Proof.
  intros W C I. rewrite (sc_graph aa l e (cell_sound aa l e W C)). apply in_cell_links. right. exists n, r. split; [exact I|]. apply in_map.
  rewrite <- tip_link_eq. unfold tip_link, graph_links. apply last_in.
Qed.
(** C105.  Every robot of an environment with several robots can be used through TesseractRobot: its
    links are the world and the tip of the robot, and with a correct table of link poses its forward
    kinematics is that of the robot, whatever the other robots do. *)
Theorem C105_shared : forall aa l e n r group g solver, (forall A, is_SO3 A -> aa A = A) -> Forall (fun m => wf_robot (snd m)) l -> wf_aux r ->
  cell aa l e -> In (n, r) l -> group n = Ok g -> group_answer e n g ->
  exists tr, TesseractRobot_new aa None n solver group (Some e) = Ok tr /\
    tr_base tr = "world"%string /\ tr_tip tr = (n ++ "_" ++ List.last (graph_links r) "")%string /\
    forall theta q frames, assigns q (map (fun j => n ++ "_" ++ j)%string (moving_joints r)) theta -> table (tr_env tr) q frames ->
    exists T T', tess_fwdkin tr frames None None = Ok T /\ fwdkin r theta true = Ok T' /\ same_motion T T'.
Proof.
  intros aa l e n r group g solver AA W WA C I EG GA. pose proof (cell_sound aa l e W C) as SC.
  pose proof (proj1 (Forall_forall _ _) W _ I) as Wr. pose proof (proj1 (Forall_forall _ _) (sc_robots aa l e SC) _ I) as G. cbn [snd] in Wr, G.
  eexists. split; [exact (shared_tip aa l e n r group g solver W C I EG GA)|]. cbn [tr_base tr_tip tr_env].
  split; [reflexivity|]. split; [change (List.last (graph_links r) ""%string) with (tip_link r); rewrite tip_link_eq; reflexivity|].
  intros theta q frames AS (TB1 & TB2).
  assert (Lt : List.length theta = List.length (rtype r)).
  { rewrite <- (gr_names r G), <- (map_length (pre n)). clear -AS. unfold pre. induction AS; simpl; congruence. }
  unfold tess_fwdkin. cbn [tr_tip]. destruct (frames (pre n (tip_of r))) as [T|] eqn:F; [|exfalso; exact (TB1 _ (shared_tip_in aa l e n r W C I) F)].
  destruct (TB2 _ _ F) as (RT & fp & P & EF). destruct (C20_fwdkin_ignore r theta Wr) as (T' & E' & A'); [lia|].
  exists (isometry3d_to_transform T), T'. split; auto. split; auto. apply same_motion_act. intros x.
  change (act (isometry3d_to_transform T) x) with (act T x). rewrite A', <- EF.
  rewrite (shared_pose aa l e n r q theta fp AA W WA C I AS P). reflexivity.
Qed.
Lemma names_assign r n theta : graphable r -> List.length theta = List.length (rtype r) -> exists q, assigns q (map (pre n) (moving_joints r)) theta.
Proof.
  intros G L. apply assigns_exists; [|rewrite map_length, (gr_names r G); lia].
  apply FinFun.Injective_map_NoDup; [exact (pre_inj n)|]. exact (proj1 (proj1 (nodup_app _ _) (gr_unique r G))).
Qed.
(** C105.  The Jacobian and the inverse kinematics of a robot in a shared environment are those of
    the robot. *)
Theorem C105_jacobian : forall aa l e n r group g solver tr, (forall A, is_SO3 A -> aa A = A) -> Forall (fun m => wf_robot (snd m)) l -> wf_aux r ->
  cell aa l e -> In (n, r) l -> group n = Ok g -> group_answer e n g -> TesseractRobot_new aa None n solver group (Some e) = Ok tr ->
  forall (f : list R -> transform),
  (forall theta q, assigns q (map (fun j => n ++ "_" ++ j)%string (moving_joints r)) theta -> at_pose (tr_env tr) q (tr_tip tr) (f theta)) ->
  forall theta J, List.length theta = List.length (rtype r) -> velocity_jacobian f theta J ->
  robotjacobian r theta true = Ok (tess_jacobian J).
Proof.
  intros aa l e n r group g solver tr AA W WA C I EG GA E f PL theta J L V. pose proof (cell_sound aa l e W C) as SC.
  pose proof (proj1 (Forall_forall _ _) W _ I) as Wr. pose proof (proj1 (Forall_forall _ _) (sc_robots aa l e SC) _ I) as G. cbn [snd] in Wr, G.
  rewrite (shared_tip aa l e n r group g solver W C I EG GA) in E. injection E as <-. cbn [tr_env tr_tip] in PL.
  apply (swapped_jacobian r f theta J Wr WA (gr_plain r G) L); auto.
  intros th Lth. destruct (C20_fwdkin_ignore r th Wr) as (T & ET & A); [lia|]. exists T. split; auto.
  destruct (names_assign r n th G Lth) as (q & AS). destruct (PL th q AS) as (f1 & P1 & E1). apply same_motion_act. intros x. rewrite A, <- E1.
  rewrite (shared_pose aa l e n r q th f1 AA W WA C I AS P1). reflexivity.
Qed.
Theorem C105_invkin : forall aa l e n r group g solver tr, (forall A, is_SO3 A -> aa A = A) -> Forall (fun m => wf_robot (snd m)) l -> Forall (fun m => wf_aux (snd m)) l ->
  cell aa l e -> In (n, r) l -> group n = Ok g -> group_answer e n g -> TesseractRobot_new aa None n solver group (Some e) = Ok tr ->
  forall calc pose seed theta, solver_sound (tr_env tr) (map (fun j => n ++ "_" ++ j)%string (moving_joints r)) calc -> rigid pose ->
  In theta (tess_invkin aa tr calc pose seed None None) ->
  exists T, fwdkin r theta true = Ok T /\ same_motion T pose.
Proof.
  intros aa l e n r group g solver tr AA W WAs C I EG GA E calc pose seed theta SD RP J. pose proof (cell_sound aa l e W C) as SC.
  pose proof (proj1 (Forall_forall _ _) W _ I) as Wr. pose proof (proj1 (Forall_forall _ _) (sc_robots aa l e SC) _ I) as G. pose proof (proj1 (Forall_forall _ _) WAs _ I) as WA. cbn [snd] in Wr, G, WA.
  rewrite (shared_tip aa l e n r group g solver W C I EG GA) in E. injection E as <-. unfold tess_invkin in J. cbn [tr_env tr_base tr_tip] in *.
  destruct (SD _ _ _ _ _ J) as (L & S). rewrite map_length, (gr_names r G) in L.
  destruct (C20_fwdkin_ignore r theta Wr) as (T & ET & A); [lia|]. exists T. split; auto.
  destruct (names_assign r n theta G L) as (q & AS). apply same_motion_act. intros x. rewrite A.
  destruct (place_tip aa AA r n q theta Wr G WA AS) as (f & Pf & Ef).
  assert (P' : placed (fst e) q "world" (pre n (tip_of r)) f).
  { eapply placed_mono; [|exact Pf]. rewrite (sc_graph aa l e SC). cbn [sg_joints env_graph]. intros j H. apply in_cell_joints. exists n, r. split; [exact I|exact H]. }
  rewrite <- (act_iso aa AA pose x RP). rewrite <- (S q (fun x => x) f AS (placed_root _ _ _) P' x), Ef. reflexivity.
Qed.
(** C105.  Every link of the environment has a pose, at all joint values. *)
Theorem C105_table : forall aa l e, (forall A, is_SO3 A -> aa A = A) -> Forall (fun m => wf_robot (snd m)) l -> Forall (fun m => wf_aux (snd m)) l ->
  cell aa l e -> forall q, exists frames, table (fst e) q frames.
Proof.
  intros aa l e AA W WA C q. pose proof (cell_sound aa l e W C) as SC.
  apply (choose_table (fun l T => rigid T /\ at_pose (fst e) q l T)). intros x I. rewrite (sc_graph aa l e SC) in I. cbn [sg_links] in I.
  assert (K : forall n r, In (n, r) l -> x = "world"%string \/ In x (map (pre n) (graph_links r)) -> exists T, rigid T /\ at_pose (fst e) q x T).
  { intros n r M X. destruct (env_pose aa r n q AA (proj1 (Forall_forall _ _) W _ M) (proj1 (Forall_forall _ _) WA _ M) (proj1 (Forall_forall _ _) (sc_robots aa l e SC) _ M) x X) as (T & RT & f & P & E).
    exists T. split; [exact RT|]. exists f. split; [|exact E]. eapply placed_mono; [|exact P].
    rewrite (sc_graph aa l e SC). cbn [sg_joints env_graph]. intros j J. apply in_cell_joints. exists n, r. split; [exact M|exact J]. }
  apply in_cell_links in I as [->|(n & r & M & X)]; [|exact (K n r M (or_intror X))].
  destruct l as [|(n, r) l]; [inversion C|]. exact (K n r (or_introl eq_refl) (or_introl eq_refl)).
Qed.
(** C105.  The kinematic group of a robot in a shared environment, with its limits and redundant
    joints, is that of the robot alone. *)
Theorem C105_group : forall aa l e n r solver tr kg, Forall (fun m => wf_robot (snd m)) l -> cell aa l e -> In (n, r) l ->
  TesseractRobot_init aa r n solver = Ok tr ->
  (group_of (fst e) (snd e) n kg <-> group_of (tr_env tr) (tr_infos tr) n kg).
Proof.
  intros aa l e n r solver tr kg W C I E. pose proof (cell_sound aa l e W C) as SC.
  pose proof (proj1 (Forall_forall _ _) W _ I) as Wr. pose proof (proj1 (Forall_forall _ _) (sc_robots aa l e SC) _ I) as G. cbn [snd] in Wr, G.
  assert (X : exists info, tr_env tr = env_graph aa r n /\ tr_infos tr = [KI n "world" (pre n (tip_of r)) info]).
  { unfold TesseractRobot_init in E. apply bind_ok_inv in E as ((((g & ks) & links) & names) & E1 & E).
    apply bind_ok_inv in E as (b & _ & E). apply bind_ok_inv in E as (t & _ & E). injection E as <-.
    apply (env_ok aa r n _ _ _ _ _ _ (wf_H r Wr) (wf_P r Wr)) in E1. destruct E1 as (_ & _ & info & _ & -> & -> & _). exists info. split; reflexivity. }
  destruct X as (info & -> & ->). destruct (children_unique aa l (sc_links aa l e SC)) as (N1 & N2).
  assert (M : forall a b js, way (env_graph aa r n) a b js -> way (fst e) a b js).
  { intros a b js Y. induction Y as [|j js Ij Y IH]; [constructor|]. constructor; [|exact IH]. rewrite (sc_graph aa l e SC). apply in_cell_joints. exists n, r. split; [exact I|exact Ij]. }
  set (k0 := KI n "world" (pre n (tip_of r)) info).
  pose proof (proj2 (group_way aa r n k0 _ G eq_refl eq_refl) eq_refl) as W0. cbn [k_base k_tip k0] in W0.
  split.
  - intros (k & js & Ik & Kn & Y & A & B). destruct (sc_known aa l e SC k Ik) as (n' & r' & I' & K1 & K2 & K3). rewrite Kn in K1. subst n'.
    pose proof (cell_once aa l e n r r' SC I I'). subst r'. exists k0, js. split; [left; reflexivity|]. split; [reflexivity|]. cbn [k_base k_tip k0]. split; [|auto].
    rewrite K2, K3 in Y. pose proof (M _ _ _ W0) as Y0. rewrite (sc_graph aa l e SC) in Y, Y0.
    rewrite (way_unique (SG (cell_links l) (cell_joints aa l)) "world" N1 N2 _ _ Y _ Y0). exact W0.
  - intros (k & js & [<-|[]] & _ & Y & A & B). cbn [k_base k_tip k0] in Y. destruct (sc_listed aa l e SC n r I) as (k & Ik & K1 & K2 & K3).
    exists k, js. split; [exact Ik|]. split; [exact K1|]. rewrite K2, K3. split; [exact (M _ _ _ Y)|auto].
Qed.
(** An environment made from a robot is wrapped as the robot itself. *)
Theorem C105_wrap : forall aa r n solver solver' tr group g, wf_robot r -> TesseractRobot_new aa (Some r) n solver group None = Ok tr ->
  group n = Ok g -> group_answer (tr_env tr, tr_infos tr) n g -> TesseractRobot_new aa None n solver' group (Some (tr_env tr, tr_infos tr)) = Ok tr.
Proof.
  intros aa r n solver solver' tr group g W E EG GA. cbn [TesseractRobot_new] in E. unfold TesseractRobot_init in E. apply bind_ok_inv in E as ((((gr & ks) & links) & names) & E1 & E).
  assert (C : cell aa [(n, r)] (gr, ks)) by (eapply cell_first; exact E1).
  assert (WL : Forall (fun m : string * robot => wf_robot (snd m)) [(n, r)]) by (constructor; [exact W|constructor]).
  pose proof (cell_sound aa _ _ WL C) as SC. pose proof (Forall_inv (sc_robots _ _ _ SC)) as G. cbn [snd] in G.
  apply (env_ok aa r n _ None gr ks links names (wf_H r W) (wf_P r W)) in E1. destruct E1 as (_ & _ & info & _ & Eg & Ek & El & _).
  rewrite El in E. cbn [index nth_error bind] in E. rewrite (index_last_ok _ ""%string) in E by discriminate. cbn [bind] in E. injection E as <-. cbn [tr_env tr_infos] in *.
  destruct GA as (k & Ik & Kn & Eb & Nt & Tips). cbn [fst snd] in *. rewrite Ek in Ik. destruct Ik as [<-|[]]. cbn [k_base k_tip] in *.
  destruct (eg_tips g) as [|t ts] eqn:ET; [contradiction|]. destruct (Tips t (or_introl eq_refl)) as (js & WY).
  assert (Et : t = pre n (tip_of r)).
  { destruct (way_row _ _ _ _ WY) as (RW & IN). destruct js as [|j js]; [symmetry; exact RW|]. destruct RW as (P & _).
    exfalso. refine (tip_last aa _ _ n r j SC (or_introl eq_refl) _ P). pose proof (IN j (or_introl eq_refl)) as J. rewrite Eg in J. exact J. }
  unfold TesseractRobot_new, TesseractRobot_wrap. rewrite EG. cbn [bind]. rewrite ET. cbn [index nth_error bind fst snd]. rewrite Eb. f_equal. f_equal.
  rewrite Et. change (pre n (tip_of r) = List.last (map (pre n) (graph_links r)) ""%string). symmetry. apply pre_last.
Qed.
(** Exactly one of robot and environment may be given; an unknown group is refused. *)
Theorem C105_arguments : forall aa r n solver group e,
  TesseractRobot_new aa None n solver group None = Err AssertionError /\ TesseractRobot_new aa (Some r) n solver group (Some e) = Err AssertionError /\
  (forall ex, group n = Err ex -> TesseractRobot_new aa None n solver group (Some e) = Err ex).
Proof. intros. split; [reflexivity|]. split; [reflexivity|]. intros ex E. unfold TesseractRobot_new, TesseractRobot_wrap. rewrite E. reflexivity. Qed.
(** C105.  A further robot is accepted exactly when it can be made a graph, has a new name and brings
    no joint name that is already there; links never clash. *)
Theorem C105_add_iff : forall aa l e n r, Forall (fun m => wf_robot (snd m)) l -> wf_robot r -> cell aa l e ->
  ((exists cs links names e', robot_to_tesseract_env_commands aa r n false None None = Ok (cs, links, names) /\ apply_commands cs e = Some e') <->
   graphable r /\ (forall r', ~ In (n, r') l) /\ (forall j, In j (moving_joints r ++ fixed_joints r) -> n ++ "_" ++ j <> "world_to_" ++ n)%string /\
   (forall n' r' x, In (n', r') l -> In x (brought n r) -> ~ In x (brought n' r'))).
Proof.
  intros aa l e n r W Wr C. pose proof (cell_sound aa l e W C) as SC.
  assert (NM : forall x, In x (map tj_name (cell_joints aa l)) <-> exists n' r', In (n', r') l /\ In x (brought n' r')).
  { intros x. rewrite in_map_iff. split.
    - intros (j & <- & J). apply in_cell_joints in J as (n' & r' & I & J). exists n', r'. split; [exact I|]. apply (brought_names aa); [exact (proj1 (Forall_forall _ _) (sc_robots aa l e SC) _ I)|]. apply in_map, J.
    - intros (n' & r' & I & J). apply (brought_names aa) in J; [|exact (proj1 (Forall_forall _ _) (sc_robots aa l e SC) _ I)]. apply in_map_iff in J as (j & E & J). exists j. split; [exact E|]. apply in_cell_joints. eauto. }
  split.
  - intros (cs & links & names & e' & E & A). apply (commands_ok aa r n false None None cs links names (wf_H r Wr) (wf_P r Wr)) in E. destruct E as (G & info & _ & -> & _ & _).
    cbn [app apply_commands apply_command] in A. rewrite (sc_graph aa l e SC) in A. destruct (attach _ _ _ _) as [g|] eqn:AT; [|discriminate A].
    apply (attach_iff aa l n r g G) in AT. destruct AT as (D1 & D2 & D3 & F & _). split; [exact G|]. split; [|split].
    + intros r' I. apply (D1 (pre n "base_link")); [apply in_map; left; reflexivity|]. apply in_cell_links. right. exists n, r'. split; [exact I|]. apply in_map. left. reflexivity.
    + intros j I E. apply F. rewrite <- E. apply (in_map (pre n)), I.
    + intros n' r' x I B B'. assert (X : In x (map tj_name (cell_joints aa l))) by (apply NM; eauto). destruct B as [<-|B]; [exact (D3 X)|exact (D2 x B X)].
  - intros (G & N & F & D).
    assert (AT : attach (fst e) (SG (graph_links r) (all_joints aa r)) (get_robot_world_to_base_joint aa r n) (n ++ "_") = Some (SG (cell_links ((n, r) :: l)) (cell_joints aa ((n, r) :: l)))).
    { rewrite (sc_graph aa l e SC). apply (attach_iff aa l n r _ G). split; [|split; [|split; [|split]]].
      - intros x I J. apply in_cell_links in J as [->|(n' & r' & I' & J)]; [apply in_map_iff in I as (s & I & _); revert I; apply pre_not_world|].
        destruct (String.string_dec n n') as [<-|NE]; [exact (N r' I')|exact (links_apart n n' r r' x NE I J)].
      - intros x I J. apply NM in J as (n' & r' & I' & J). exact (D n' r' x I' (or_intror I) J).
      - intros J. apply NM in J as (n' & r' & I' & J). exact (D n' r' _ I' (or_introl eq_refl) J).
      - intros I. apply in_map_iff in I as (j & E & I). exact (F j I E).
      - reflexivity. }
    eexists _, _, _, _. split.
    + apply (commands_ok aa r n false None None _ _ _ (wf_H r Wr) (wf_P r Wr)). split; [exact G|]. eexists. split; [reflexivity|]. split; [reflexivity|]. split; reflexivity.
    + cbn [app apply_commands apply_command]. rewrite AT. reflexivity.
Qed.
(** names without underscores, other than world, never clash *)
Lemma plain_split a b x y : plain_name a -> plain_name b -> (a ++ String "_" x = b ++ String "_" y)%string -> a = b /\ x = y.
Proof. intros Pa Pb E. destruct (split_ _ _ _ _ E) as [H|[(m & C & _)|(m & C & _)]]; [exact H|exfalso; exact (plain_no _ _ _ Pb C)|exfalso; exact (plain_no _ _ _ Pa C)]. Qed.
Theorem C105_plain_names : forall aa l, l <> [] -> Forall (fun m => wf_robot (snd m) /\ graphable (snd m) /\ plain_name (fst m) /\ fst m <> "world"%string) l -> NoDup (map fst l) ->
  exists e, cell aa l e.
Proof.
  intros aa l. induction l as [|(n, r) l IH]; [contradiction|]. intros _ F ND. pose proof (Forall_inv F) as (W & G & P & NW). cbn [fst snd] in *. pose proof (Forall_inv_tail F) as F'. apply NoDup_cons_iff in ND as (N1 & N2).
  assert (FR : forall n' r' j, plain_name n' -> n' <> "world"%string -> In j (moving_joints r' ++ fixed_joints r') -> forall m, (n' ++ "_" ++ j <> "world_to_" ++ m)%string).
  { intros n' r' j Pn Nw _ m E. change ("world_to_" ++ m)%string with ("world" ++ String "_" ("to_" ++ m))%string in E.
    apply (plain_split n' "world" j ("to_" ++ m)%string Pn) in E; [|cbn; repeat split; discriminate]. exact (Nw (proj1 E)). }
  destruct l as [|m l].
  - destruct (proj2 (C61_environment_iff aa r n W) (conj G (fun j I => FR n r j P NW I n))) as ((((g & ks) & links) & names) & E). exists (g, ks). eapply cell_first. exact E.
  - destruct (IH ltac:(discriminate) F' N2) as (e & C).
    assert (WL : Forall (fun m : string * robot => wf_robot (snd m)) (m :: l)) by (eapply Forall_impl; [|exact F']; cbv beta; tauto).
    destruct (proj2 (C105_add_iff aa (m :: l) e n r WL W C)) as (cs & links & names & e' & E & A); [|exists e'; eapply cell_more; eassumption].
    split; [exact G|]. split; [|split].
    + intros r' I. apply N1. apply (in_map fst) in I. exact I.
    + intros j I. exact (FR n r j P NW I n).
    + intros n' r' x I B B'. destruct (proj1 (Forall_forall _ _) F' _ I) as (_ & _ & P' & NW'). cbn [fst snd] in *.
      assert (NE : n <> n') by (intros ->; apply N1; apply (in_map fst) in I; exact I).
      destruct B as [<-|B], B' as [B'|B'].
      * apply (append_inj_l "world_to_") in B'. auto.
      * apply in_map_iff in B' as (j & E & J). exact (FR n' r' j P' NW' J n E).
      * subst x. apply in_map_iff in B as (j & E & J). exact (FR n r j P NW J n' E).
      * apply in_map_iff in B as (j & <- & J). apply in_map_iff in B' as (j' & E & J'). apply (plain_split n' n j' j P' P) in E. destruct E as (E & _). auto.
Qed.

(* ---- a clash ---- *)
Definition one_arm (joint : string) : robot :=
  Rb [ez] [V3 0 0 1; V3 1 0 0] [Rotary] (Some [-3]) (Some [3]) (Some [1]) (Some [2]) None None None (Some [joint]) None None None None.
Lemma one_arm_wf j : wf_robot (one_arm j).
Proof.
  split; try reflexivity.
  - repeat constructor; cbv [unit3 norm2 dot vx vy vz ez one_arm]; ring.
  - intros l [= <-]. reflexivity.
  - intros l [= <-]. reflexivity.
Qed.
Lemma one_arm_graphable j : j <> "link_1_to_chain_tip"%string -> graphable (one_arm j).
Proof.
  intros N. split; [simpl; lia|repeat constructor; left; reflexivity| |reflexivity|].
  - do 4 eexists. repeat split; simpl; lia.
  - cbn [moving_joints one_arm rnames fixed_joints rflange rRtool rptool app].
    repeat (constructor; [cbn [In]; intuition; subst; try discriminate|]); try constructor.
Qed.
Lemma one_arm_alone aa n j : j <> "link_1_to_chain_tip"%string -> (n ++ "_" ++ j <> "world_to_" ++ n)%string -> (n ++ "_link_1_to_chain_tip" <> "world_to_" ++ n)%string ->
  exists e, cell aa [(n, one_arm j)] e.
Proof.
  intros N N1 N2. destruct (proj2 (C61_environment_iff aa (one_arm j) n (one_arm_wf j))) as ((((g & ks) & links) & names) & E); [|exists (g, ks); eapply cell_first; exact E].
  split; [apply one_arm_graphable, N|]. intros i [<-|[<-|[]]]; assumption.
Qed.
(** Different names are not enough: the joint left_elbow of robot arm and the joint elbow of robot
    arm_left get the same name, so the second robot cannot join the first. *)
Theorem C105_clash_refuted : exists n1 r1 n2 r2, n1 <> n2 /\ wf_robot r1 /\ wf_robot r2 /\
  forall aa, (exists e, cell aa [(n1, r1)] e) /\ (exists e, cell aa [(n2, r2)] e) /\ forall e, ~ cell aa [(n2, r2); (n1, r1)] e.
Proof.
  exists "arm"%string, (one_arm "left_elbow"), "arm_left"%string, (one_arm "elbow"). split; [discriminate|]. split; [apply one_arm_wf|]. split; [apply one_arm_wf|].
  intros aa. split; [apply one_arm_alone; discriminate|]. split; [apply one_arm_alone; discriminate|].
  intros e C. assert (W : Forall (fun m : string * robot => wf_robot (snd m)) [("arm_left", one_arm "elbow"); ("arm", one_arm "left_elbow")]%string) by (constructor; [apply one_arm_wf|constructor; [apply one_arm_wf|constructor]]).
  pose proof (sc_names _ _ _ (cell_sound aa _ _ W C)) as ND. vm_compute in ND.
  repeat match type of ND with NoDup (?a :: _) => apply NoDup_cons_iff in ND; let H := fresh in destruct ND as (H & ND); cbn [In] in H; try (apply H; repeat (try (left; reflexivity); right); fail) end.
Qed.

(* ---- the premises are met ---- *)
Definition pair_of_arms : list (string * robot) := [("right", demo); ("left", demo)]%string.
Lemma pair_wf : Forall (fun m => wf_robot (snd m)) pair_of_arms.
Proof. repeat (constructor; [exact demo_wf|]). constructor. Qed.
Lemma pair_aux : Forall (fun m => wf_aux (snd m)) pair_of_arms.
Proof. repeat (constructor; [exact demo_aux|]). constructor. Qed.
Lemma pair_exists : exists e, cell (fun A => A) pair_of_arms e.
Proof.
  apply C105_plain_names; [discriminate| |].
  - repeat (constructor; [split; [exact demo_wf|]; split; [exact demo_graphable|]; split; [cbn; repeat split; discriminate|discriminate]|]). constructor.
  - cbn. repeat (constructor; [cbn [In]; intuition discriminate|]). constructor.
Qed.
Lemma group_exists aa l e n r : Forall (fun m => wf_robot (snd m)) l -> cell aa l e -> In (n, r) l -> group_answer e n (EG "world" [pre n (tip_of r)]).
Proof.
  intros W C I. destruct (sc_listed _ _ _ (cell_sound aa l e W C) n r I) as (k & Ik & K1 & K2 & K3). exists k. split; [exact Ik|]. split; [exact K1|].
  split; [symmetry; exact K2|]. split; [discriminate|]. intros t [<-|[]]. exists []. rewrite K3. constructor.
Qed.
(** Two arms, the right one at (1, 1/2), the left one elsewhere. *)
Example C105_shared_example : exists e g frames q, cell (fun A => A) pair_of_arms e /\ group_answer e "right" g /\ table (fst e) q frames /\
  assigns q ["right_a"; "right_b"]%string [1; 1/2] /\ assigns q ["left_a"; "left_b"]%string [2; 0].
Proof.
  destruct pair_exists as (e & C).
  set (q := fun n => if String.eqb n "right_a" then 1 else if String.eqb n "right_b" then 1/2 else if String.eqb n "left_a" then 2 else 0).
  destruct (C105_table _ _ e (fun A _ => eq_refl) pair_wf pair_aux C q) as (frames & T).
  exists e, (EG "world" [pre "right" (tip_of demo)]), frames, q. split; [exact C|]. split; [apply (group_exists _ _ e "right" demo pair_wf C); left; reflexivity|]. split; [exact T|]. split; repeat constructor.
Qed.
Example C105_wrap_example : exists tr g, TesseractRobot_new (fun A => A) (Some demo) "arm" "KDLInvKinChainLMA" (fun _ => Err OtherException) None = Ok tr /\ group_answer (tr_env tr, tr_infos tr) "arm" g.
Proof.
  destruct demo_init as (tr & E). exists tr, (EG "world" [pre "arm" (tip_of demo)]). split; [exact E|].
  unfold TesseractRobot_init in E. apply bind_ok_inv in E as ((((g & ks) & links) & names) & E1 & E). apply bind_ok_inv in E as (b & _ & E). apply bind_ok_inv in E as (t & _ & E). injection E as <-.
  cbn [tr_env tr_infos]. apply (group_exists (fun A => A) [("arm"%string, demo)] (g, ks) "arm" demo); [constructor; [exact demo_wf|constructor]|eapply cell_first; exact E1|left; reflexivity].
Qed.
Example C105_add_example : exists e, cell (fun A => A) [("left"%string, demo)] e /\
  exists cs links names e', robot_to_tesseract_env_commands (fun A => A) demo "right" false None None = Ok (cs, links, names) /\ apply_commands cs e = Some e'.
Proof.
  destruct pair_exists as (e & C). inversion C as [|? ? ? ? ? ? ? ? ? ? C1 E A]; subst. exists e0. split; [exact C1|].
  assert (W1 : Forall (fun m : string * robot => wf_robot (snd m)) [("left"%string, demo)]) by (constructor; [exact demo_wf|constructor]).
  apply (C105_add_iff (fun A => A) [("left"%string, demo)] e0 "right" demo W1 demo_wf C1).
  split; [exact demo_graphable|]. split; [intros r' [X|[]]; discriminate X|]. split.
  - intros j H. cbn in H. repeat (destruct H as [<-|H]; [discriminate|]). contradiction.
  - intros n' r' x [X|[]] B B'. injection X as <- <-. cbn in B, B'.
    repeat (destruct B as [<-|B]; [repeat (destruct B' as [B'|B']; [discriminate B'|]); contradiction|]). contradiction.
Qed.

(** In this environment the poses of the right tip are those of the robot (with their Jacobian:
    C75_jacobian_example), and there is a sound solver with an answer. *)
Lemma pair_at e theta q : cell (fun A => A) pair_of_arms e -> assigns q ["right_a"; "right_b"]%string theta ->
  at_pose (fst e) q (pre "right" (tip_of demo)) (demo_pose theta).
Proof.
  intros C AS. destruct (C105_table _ _ e (fun A _ => eq_refl) pair_wf pair_aux C q) as (frames & TB1 & TB2).
  pose proof (shared_tip_in _ _ e "right" demo pair_wf C (or_introl eq_refl)) as I.
  destruct (frames (pre "right" (tip_of demo))) as [T|] eqn:F; [|exfalso; exact (TB1 _ I F)]. destruct (TB2 _ _ F) as (_ & f & P & _).
  exists f. split; [exact P|]. intros x. rewrite (shared_pose (fun A => A) _ e "right" demo q theta f (fun A _ => eq_refl) pair_wf demo_aux C (or_introl eq_refl) AS P).
  assert (L : List.length theta = 2%nat) by (clear -AS; inversion AS as [|? ? ? ? _ A1]; inversion A1 as [|? ? ? ? _ A2]; inversion A2; reflexivity).
  destruct (C20_fwdkin_ignore demo theta demo_wf) as (T' & ET & A); [simpl; lia|]. unfold demo_pose. rewrite ET, A. reflexivity.
Qed.
Example C105_invkin_example : exists e calc, cell (fun A => A) pair_of_arms e /\ solver_sound (fst e) ["right_a"; "right_b"]%string calc /\ rigid (demo_pose [1; 1/2]) /\
  In [1; 1/2] (tess_invkin (fun A => A) (TR (fst e) (snd e) "world" (pre "right" (tip_of demo))) calc (demo_pose [1; 1/2]) [0; 0] None None).
Proof.
  destruct pair_exists as (e & C). exists e. pose proof (cell_sound _ _ _ pair_wf C) as SC. destruct (children_unique (fun A => A) _ (sc_links _ _ _ SC)) as (N1 & N2).
  assert (U : forall q l f f', placed (fst e) q "world" l f -> placed (fst e) q "world" l f' -> forall x, f x = f' x).
  { intros q l f f' P P'. rewrite (sc_graph _ _ _ SC) in P, P'. exact (placed_unique (SG _ _) q "world" N1 N2 _ _ P _ P'). }
  exists (fun T b t seed => if (string_dec b "world") then if (string_dec t (pre "right" (tip_of demo))) then
     if mat_dec (tR T) (tR (demo_pose [1; 1/2])) then if vec_dec (tp T) (tp (demo_pose [1; 1/2])) then [[1; 1/2]] else [] else [] else [] else []).
  split; auto. split; [|split].
  - intros T b t seed theta I. destruct (string_dec b "world") as [-> |]; [|destruct I]. destruct (string_dec t _) as [-> |]; [|destruct I].
    destruct (mat_dec _ _) as [ER|]; [|destruct I]. destruct (vec_dec _ _) as [EP|]; [|destruct I]. destruct I as [<- | []].
    split; auto. intros q fb ft AS Pb Pt x.
    destruct (pair_at e [1; 1/2] q C AS) as (f & P & Ef).
    rewrite (U q _ _ _ Pt P), (U q _ _ _ Pb (placed_root _ _ _)), Ef. unfold act. rewrite ER, EP. reflexivity.
  - unfold demo_pose. destruct (fwdkin demo [1; 1/2] true) as [T|] eqn:F; [|exact SO3_I]. exact (C21_fwdkin_rigid demo _ true T demo_wf demo_aux F).
  - unfold tess_invkin. cbn [tr_base tr_tip]. destruct (string_dec "world" "world") as [_|N]; [|exfalso; apply N; reflexivity].
    destruct (string_dec (pre "right" (tip_of demo)) _) as [_|N]; [|exfalso; apply N; reflexivity].
    unfold transform_to_isometry3d. cbn [tR tp].
    destruct (mat_dec _ _) as [_|N]; [|exfalso; apply N; reflexivity]. destruct (vec_dec _ _) as [_|N]; [|exfalso; apply N; reflexivity].
    left. reflexivity.
Qed.
Print Assumptions C105_shared.
Print Assumptions C105_jacobian.
Print Assumptions C105_invkin.
Print Assumptions C105_table.
Print Assumptions C105_group.
Print Assumptions C105_wrap.
Print Assumptions C105_arguments.
Print Assumptions C105_add_iff.
Print Assumptions C105_plain_names.
Print Assumptions C105_clash_refuted.
