(** Property C54, continued: null lists and axes that are no numbers. *)
From Coq Require Import Reals ZArith String List Bool Arith Lra Lia.
From Verif Require Import LinAlg RealAux Py FactsReal FactsLinAlg ModelRot SpecRot FactsRot ModelTransform ModelRobot ModelKin
  SpecKin FactsKin FactsJac PropKin FactsInvkin ModelRR SpecRR FactsRR PropRR.
Import ListNotations.
Open Scope R_scope.

(** C54.  Even when other numbers are null, the axes are numbers and of unit length. *)
Theorem C54_axes : forall parse doc c x, load_robot_info parse doc c = Ok x ->
  exists ch v hs Hs, picks doc c ch /\ at_key ch "H" v /\ (v = YList hs \/ (size v 0 /\ hs = [])) /\
    Forall2 (says_vec parse) hs Hs /\ Forall (fun h => Rabs (norm h - 1) <= 1/100000000 + 1/100000) Hs.
Proof.
  intros parse doc c x H. unfold load_robot_info in H.
  apply bind_iff in H. destruct H as (chains & Kc & H). apply bind_iff in H. destruct H as ([] & Ck & H).
  apply bind_iff in H. destruct H as (nc & Lc & H). destruct (_ <=? _)%Z eqn:Cc; [discriminate|].
  apply bind_iff in H. destruct H as (ch & Ic & H). apply bind_iff in H. destruct H as (nums & Kn & H).
  apply bind_iff in H. destruct H as (n & Ln & H). apply bind_iff in H. destruct H as ([] & Cn & H).
  apply bind_iff in H. destruct H as (Hv & KH & H). apply bind_iff in H. destruct H as ([] & LH & H).
  apply bind_iff in H. destruct H as (Pv & KP & H). apply bind_iff in H. destruct H as ([] & LP & H).
  apply bind_iff in H. destruct H as (H0 & EH & H). apply bind_iff in H. destruct H as (P0 & EP & H).
  apply bind_iff in H. destruct H as (joints & EJ & H). apply bind_iff in H. destruct H as (links & Klk & H).
  apply bind_iff in H. destruct H as (root & Er & H). apply bind_iff in H. destruct H as (fid & Kfi & H).
  apply bind_iff in H. destruct H as (ftip & Eft & H). apply bind_iff in H. destruct H as (fp & Kfp & H).
  apply bind_iff in H. destruct H as (flange & Efl & H). apply bind_iff in H. destruct H as (cur & Kcu & H).
  apply bind_iff in H. destruct H as (tt' & Ett & H). apply bind_iff in H. destruct H as (rdi & Krd & H).
  apply bind_iff in H. destruct H as (base & Eba & H).
  destruct (all_fin H0) as [HH|] eqn:AH; [|discriminate].
  assert (U : Forall (fun h => Rabs (norm h - 1) <= 1/100000000 + 1/100000) HH).
  { assert (G : forall a r, aH a = Cols 3 (map col3 HH) -> rectangular (aP a) -> Robot_init a = Ok r ->
      Forall (fun h => Rabs (norm h - 1) <= 1/100000000 + 1/100000) HH).
    { intros a r Ea Ra E. destruct (Robot_init_cases a) as [[V _]|[_ E']]; [rewrite Ea; apply col3_rect|exact Ra| |congruence].
      pose proof (va_unit _ V) as VU. rewrite Ea in VU. cbn [columns] in VU. rewrite Forall_map in VU.
      revert VU. apply Forall_impl. intros h. rewrite col3_norm. auto. }
    destruct (all_fin P0) as [PP|], (all_fin (map je_lower joints)), (all_fin (map je_upper joints)), (all_fin (map je_vel joints)),
      (all_fin (map je_acc joints)), (opt_fin (fst tt')), flange, (opt_fin base);
      apply bind_iff in H; destruct H as (r & Ei & _); (eapply G; [| |exact Ei]; [reflexivity|apply col3_rect]). }
  assert (MC : exists m, ch = YMap m) by (apply key_iff in Kn; destruct Kn as (m & -> & _); eauto).
  apply all_fin_iff in AH. subst H0. apply check_list_iff in LH. apply (columns_iff parse Hv n HH LH) in EH.
  destruct EH as (hs & A & _ & F). exists ch, Hv, hs, HH.
  split; [apply picks_iff; auto; exists chains, nc; auto|]. split; [apply key_iff; auto|]. auto.
Qed.
(** C54.  A null in place of a list is a ValueError. *)
Theorem C54_null_lists : forall parse doc c,
  (at_key doc "chains" YNull -> load_robot_info parse doc c = Err ValueError) /\
  (forall ch n, picks doc c ch -> accepted_numbers doc ch n -> at_key ch "H" YNull -> load_robot_info parse doc c = Err ValueError) /\
  (forall ch n Hv, picks doc c ch -> accepted_numbers doc ch n -> at_key ch "H" Hv -> size Hv n -> at_key ch "P" YNull ->
     load_robot_info parse doc c = Err ValueError).
Proof.
  intros parse doc c.
  split; [|split].
  - intros K. unfold load_robot_info. apply key_iff in K. rewrite K. reflexivity.
  - intros ch n Pk (nums & Kn & Sn & Cn) KH.
    assert (MC : exists m, ch = YMap m) by (destruct Kn as (m & -> & _); eauto).
    apply picks_iff in Pk; auto. destruct Pk as (chains & k & Kc & Ck & Lk & Cc & Ic). unfold load_robot_info.
    rewrite Kc. cbn [bind]. rewrite Ck. cbn [bind]. rewrite Lk. cbn [bind]. rewrite Cc, Ic. cbn [bind].
    apply key_iff in Kn. rewrite Kn. cbn [bind]. apply len_iff in Sn. rewrite Sn. cbn [bind].
    apply check_numbers_checked in Cn. rewrite Cn. cbn [bind]. apply key_iff in KH. rewrite KH. reflexivity.
  - intros ch n Hv Pk (nums & Kn & Sn & Cn) KH SH KP.
    assert (MC : exists m, ch = YMap m) by (destruct Kn as (m & -> & _); eauto).
    apply picks_iff in Pk; auto. destruct Pk as (chains & k & Kc & Ck & Lk & Cc & Ic). unfold load_robot_info.
    rewrite Kc. cbn [bind]. rewrite Ck. cbn [bind]. rewrite Lk. cbn [bind]. rewrite Cc, Ic. cbn [bind].
    apply key_iff in Kn. rewrite Kn. cbn [bind]. apply len_iff in Sn. rewrite Sn. cbn [bind].
    apply check_numbers_checked in Cn. rewrite Cn. cbn [bind]. apply key_iff in KH. rewrite KH. cbn [bind].
    apply len_iff, check_list_iff in SH. rewrite SH. cbn [bind]. apply key_iff in KP. rewrite KP. reflexivity.
Qed.
Definition ychain_null : yv := YMap [("joint_numbers", YList [YInt 0; YInt 1]); ("H", YNull)]%string.
Example C54_null_lists_ex : let doc := ydoc [ychain_null] in
  picks doc 0 ychain_null /\ accepted_numbers doc ychain_null 2 /\ at_key ychain_null "H" YNull.
Proof.
  cbv zeta. split; [apply picks_iff; [eexists; reflexivity|]; do 2 eexists; repeat (split; [reflexivity|]); reflexivity|].
  split; [|eexists; split; reflexivity].
  exists (YList [YInt 0; YInt 1]). split; [eexists; split; reflexivity|]. split; [apply (size_list [YInt 0; YInt 1])|].
  apply check_numbers_checked. reflexivity.
Qed.
Print Assumptions C54_axes.
Print Assumptions C54_null_lists.
