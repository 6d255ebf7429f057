(** Componentwise derivatives of vector, matrix and quaternion curves. *)
From Coq Require Import Reals Lra Psatz.
From Verif Require Import LinAlg RealAux Py ModelRot SpecRot FactsReal FactsLinAlg FactsRot.
Open Scope R_scope.

Lemma dpl_const c x : derivable_pt_lim (fun _ => c) x 0.
Proof. apply derivable_pt_lim_const. Qed.
Lemma dpl_id x : derivable_pt_lim (fun s => s) x 1.
Proof. apply derivable_pt_lim_id. Qed.
Lemma dpl_plus f g x l m : derivable_pt_lim f x l -> derivable_pt_lim g x m ->
  derivable_pt_lim (fun s => f s + g s) x (l + m).
Proof. intros. apply (derivable_pt_lim_plus f g); auto. Qed.
Lemma dpl_minus f g x l m : derivable_pt_lim f x l -> derivable_pt_lim g x m ->
  derivable_pt_lim (fun s => f s - g s) x (l - m).
Proof. intros. apply (derivable_pt_lim_minus f g); auto. Qed.
Lemma dpl_opp f x l : derivable_pt_lim f x l -> derivable_pt_lim (fun s => - f s) x (- l).
Proof. intros. apply (derivable_pt_lim_opp f); auto. Qed.
Lemma dpl_mult f g x l m : derivable_pt_lim f x l -> derivable_pt_lim g x m ->
  derivable_pt_lim (fun s => f s * g s) x (l * g x + f x * m).
Proof. intros. apply (derivable_pt_lim_mult f g); auto. Qed.
Lemma dpl_sin f x l : derivable_pt_lim f x l -> derivable_pt_lim (fun s => sin (f s)) x (cos (f x) * l).
Proof. intros. apply (derivable_pt_lim_comp f sin); auto. apply derivable_pt_lim_sin. Qed.
Lemma dpl_cos f x l : derivable_pt_lim f x l -> derivable_pt_lim (fun s => cos (f s)) x (- sin (f x) * l).
Proof. intros. apply (derivable_pt_lim_comp f cos); auto. apply derivable_pt_lim_cos. Qed.
Lemma dpl_eq f x l l' : derivable_pt_lim f x l -> l = l' -> derivable_pt_lim f x l'.
Proof. intros; subst; auto. Qed.

(** Differentiate a polynomial expression in functions with known derivatives. *)
Ltac dpl :=
  repeat first
  [ eassumption
  | apply dpl_const
  | apply dpl_id
  | eapply dpl_plus
  | eapply dpl_minus
  | eapply dpl_opp
  | eapply dpl_sin
  | eapply dpl_cos
  | eapply dpl_mult ].

Lemma vderiv_const v t : vderiv (fun _ => v) t vzero.
Proof. repeat split; apply dpl_const. Qed.
Lemma mderiv_const M t : mderiv (fun _ => M) t mzero.
Proof. repeat split; apply dpl_const. Qed.
Lemma vderiv_eq f t d d' : vderiv f t d -> d = d' -> vderiv f t d'.
Proof. intros; subst; auto. Qed.
Lemma mderiv_eq f t d d' : mderiv f t d -> d = d' -> mderiv f t d'.
Proof. intros; subst; auto. Qed.

Lemma vderiv_vadd f g t d e : vderiv f t d -> vderiv g t e -> vderiv (fun s => vadd (f s) (g s)) t (vadd d e).
Proof. intros (?&?&?) (?&?&?). repeat split; apply dpl_plus; auto. Qed.
Lemma vderiv_mvec M v t M' v' : mderiv M t M' -> vderiv v t v' ->
  vderiv (fun s => mvec (M s) (v s)) t (vadd (mvec M' (v t)) (mvec (M t) v')).
Proof.
  intros ((?&?&?)&(?&?&?)&(?&?&?)) (?&?&?).
  repeat split; unfold mvec; cbn [vx vy vz];
    (eapply dpl_eq; [repeat (eapply dpl_plus || eapply dpl_mult); eassumption | la_unfold; ring]).
Qed.
Lemma vderiv_vscale f v t d v' : derivable_pt_lim f t d -> vderiv v t v' ->
  vderiv (fun s => vscale (f s) (v s)) t (vadd (vscale d (v t)) (vscale (f t) v')).
Proof.
  intros ? (?&?&?). repeat split; unfold vscale; cbn [vx vy vz];
    (eapply dpl_eq; [eapply dpl_mult; eassumption | la_unfold; ring]).
Qed.
Lemma mderiv_mmul A B t A' B' : mderiv A t A' -> mderiv B t B' ->
  mderiv (fun s => mmul (A s) (B s)) t (madd (mmul A' (B t)) (mmul (A t) B')).
Proof.
  intros ((?&?&?)&(?&?&?)&(?&?&?)) ((?&?&?)&(?&?&?)&(?&?&?)).
  repeat split; unfold mmul; cbn [m00 m01 m02 m10 m11 m12 m20 m21 m22];
    (eapply dpl_eq; [repeat (eapply dpl_plus || eapply dpl_mult); eassumption | la_unfold; ring]).
Qed.

(** d/dt rot(k, a(t)) = a' hat(k) rot(k, a) *)
Lemma hat_rot k a : unit3 k ->
  mmul (hat k) (rot k a) = madd (mscale (cos a) (hat k)) (mscale (sin a) (mmul (hat k) (hat k))).
Proof. intros H. unfold rot. generalize (sin a), (cos a). intros s c. rot_nsatz. Qed.

Lemma mderiv_rot k a t a' : unit3 k -> derivable_pt_lim a t a' ->
  mderiv (fun s => rot k (a s)) t (mmul (mscale a' (hat k)) (rot k (a t))).
Proof.
  intros Hk Ha.
  assert (E : mmul (mscale a' (hat k)) (rot k (a t)) = mscale a' (mmul (hat k) (rot k (a t)))) by rot_ring.
  rewrite E, hat_rot by auto. clear E Hk. destruct k as [x y z].
  repeat split; unfold rot, hat; la_unfold;
    (eapply dpl_eq; [dpl|]); cbv beta; ring.
Qed.

Lemma q2R_deriv_spec q t w : unit4 (q t) ->
  qderiv q t (m43vec (quatjacobian (q t)) w) ->
  mderiv (fun s => q2R (q s)) t (mmul (cross_matrix w) (q2R (q t))).
Proof.
  intros U (D0&D1&D2&D3).
  set (a := q0 (q t)) in *. 
  assert (E0 : q0 (q t) = a) by reflexivity.
  remember (q1 (q t)) as b eqn:E1. remember (q2 (q t)) as c eqn:E2. remember (q3 (q t)) as d eqn:E3.
  assert (Eq : q t = Q4 a b c d) by (apply quat_eq; simpl; auto).
  rewrite Eq in *. destruct w as [w1 w2 w3].
  unfold quatjacobian, m43vec, hat in D0, D1, D2, D3. unfold unit4 in U. la_unfold.
  cbn [r43_0 r43_1 r43_2 r43_3] in *. la_unfold.
  assert (U1 : w1 * (a * a + b * b + c * c + d * d) = w1) by (rewrite U; ring).
  assert (U2 : w2 * (a * a + b * b + c * c + d * d) = w2) by (rewrite U; ring).
  assert (U3 : w3 * (a * a + b * b + c * c + d * d) = w3) by (rewrite U; ring).
  unfold q2R, hat, cross_matrix. la_unfold.
  repeat split; cbn [m00 m01 m02 m10 m11 m12 m20 m21 m22];
    (eapply dpl_eq; [dpl|]); cbv beta; clear D0 D1 D2 D3; rewrite ?Eq; cbv beta iota; clearbody a; lra.
Qed.
