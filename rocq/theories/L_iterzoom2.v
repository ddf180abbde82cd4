(** The trigonometric interpolant is Lipschitz; the zoom used by iterative_zoom in terms of the interpolant *)
From Coq Require Import ZArith Lia List Reals Lra Bool Sorted.
From Coquelicot Require Import Complex.
From Verif Require Import Base NDim DFT Kernel Num Py M_fast_ffts M_shift M_scale M_zoom M_downsample M_convolve M_correlate Arg M_chi2 M_iterzoom Spec Spec5 L_shift L_scale L_zoom P_zoom L_iterzoom.
Import ListNotations.
Open Scope R_scope.

Lemma sin_abs_le x : Rabs (sin x) <= Rabs x.
Proof.
  assert (H : forall y, 0 < y -> Rabs (sin y) <= y).
  { intros y Hy. destruct (Rle_lt_dec y PI) as [L|L].
    - rewrite Rabs_right by (apply Rle_ge, sin_ge_0; lra). left. apply sin_lt_x; auto.
    - assert (B := SIN_bound y). assert (P := PI2_1). assert (1 < PI) by lra. apply Rle_trans with 1; [|lra]. apply Rabs_le. lra. }
  destruct (Rtotal_order x 0) as [L|[->|G]].
  - replace x with (- (- x)) by ring. rewrite sin_neg, (Rabs_Ropp (sin (- x))), (Rabs_Ropp (- x)). rewrite (Rabs_right (- x)) by lra. apply H. lra.
  - rewrite sin_0. lra.
  - rewrite (Rabs_right x) by lra. apply H. lra.
Qed.
Lemma cis_lip a b : Cmod (Cminus (cis a) (cis b)) <= Rabs (a - b).
Proof.
  assert (E : Cmod (Cminus (cis a) (cis b)) = Rabs (2 * sin ((a - b) / 2))).
  { unfold Cmod. rewrite <- (sqrt_Rsqr_abs (2 * sin ((a - b) / 2))). f_equal. unfold cis, Rsqr. cbn [fst snd Cminus Cplus Copp].
    replace (cos a) with (cos ((a + b) / 2 + (a - b) / 2)) by (f_equal; field). replace (cos b) with (cos ((a + b) / 2 - (a - b) / 2)) by (f_equal; field).
    replace (sin a) with (sin ((a + b) / 2 + (a - b) / 2)) by (f_equal; field). replace (sin b) with (sin ((a + b) / 2 - (a - b) / 2)) by (f_equal; field).
    rewrite cos_plus, cos_minus, sin_plus, sin_minus. set (u := (a + b) / 2). set (w := (a - b) / 2).
    assert (T := sin2_cos2 u). unfold Rsqr in T. replace (4) with (2*2) by ring.
    transitivity (4 * (sin w * sin w) * (sin u * sin u + cos u * cos u)); [ring|rewrite T; ring]. }
  rewrite E, Rabs_mult, (Rabs_right 2) by lra. assert (H := sin_abs_le ((a - b) / 2)).
  unfold Rdiv in H at 2. rewrite Rabs_mult, (Rabs_right (/ 2)) in H by lra. lra.
Qed.

Lemma Cmod_scal r z : Cmod (Cmult (RtoC r) z) = Rabs r * Cmod z.
Proof. rewrite Cmod_mult, Cmod_R. reflexivity. Qed.
Lemma dirichlet_le1 n t : (0 < n)%Z -> Cmod (dirichlet n t) <= 1.
Proof.
  intros Hn. assert (Pn : 0 < IZR n) by (apply IZR_lt; auto). unfold dirichlet. rewrite Cmod_scal, Rabs_right by (apply Rle_ge, Rlt_le, Rinv_0_lt_compat; auto).
  assert (B := Cmod_sumC n (fun j => cis (2 * PI * (IZR (j - n / 2) * t / IZR n)))).
  rewrite (sumR_ext n _ (fun _ => 1)) in B by (intros; apply Cmod_cis). rewrite sumR_const in B by lia.
  apply (Rmult_le_reg_l (IZR n)); [auto|]. rewrite <- Rmult_assoc, Rinv_r, Rmult_1_l by lra. lra.
Qed.
Lemma dirichlet_lip n t s : (0 < n)%Z -> Cmod (Cminus (dirichlet n t) (dirichlet n s)) <= PI * Rabs (t - s).
Proof.
  intros Hn. assert (Pn : 0 < IZR n) by (apply IZR_lt; auto). unfold dirichlet.
  match goal with |- context [Cminus (Cmult ?r (sumC n ?f)) (Cmult ?r (sumC n ?g))] =>
    replace (Cminus (Cmult r (sumC n f)) (Cmult r (sumC n g))) with (Cmult r (sumC n (fun j => Cminus (f j) (g j)))) by (rewrite sumC_minus; ring) end.
  rewrite Cmod_scal, Rabs_right by (apply Rle_ge, Rlt_le, Rinv_0_lt_compat; auto).
  match goal with |- _ * Cmod (sumC n ?f) <= _ => assert (B := Cmod_sumC n f) end.
  assert (Q : sumR n (fun j => Cmod (Cminus (cis (2 * PI * (IZR (j - n / 2) * t / IZR n))) (cis (2 * PI * (IZR (j - n / 2) * s / IZR n))))) <= IZR n * (PI * Rabs (t - s))).
  { rewrite <- (sumR_const n (PI * Rabs (t - s))) by lia. apply sumR_le. intros j Hj. eapply Rle_trans; [apply cis_lip|].
    replace (2 * PI * (IZR (j - n / 2) * t / IZR n) - 2 * PI * (IZR (j - n / 2) * s / IZR n)) with (PI * (2 * IZR (j - n / 2) / IZR n) * (t - s)) by (field; lra).
    rewrite !Rabs_mult. rewrite (Rabs_right PI) by (assert (H := PI_RGT_0); lra).
    apply Rmult_le_compat_r; [apply Rabs_pos|]. rewrite <- (Rmult_1_r PI) at 2. apply Rmult_le_compat_l; [assert (H := PI_RGT_0); lra|].
    unfold Rdiv. rewrite (Rabs_mult _ (/ IZR n)), (Rabs_right (/ IZR n)) by (apply Rle_ge, Rlt_le, Rinv_0_lt_compat; auto). apply (Rmult_le_reg_r (IZR n)); [auto|]. unfold Rdiv. rewrite Rmult_assoc, Rinv_l, Rmult_1_l, Rmult_1_r by lra.
    rewrite <- (mult_IZR 2), <- abs_IZR. apply IZR_le. Z.to_euclidean_division_equations; lia. }
  apply (Rmult_le_reg_l (IZR n)); [auto|]. rewrite <- Rmult_assoc, Rinv_r, Rmult_1_l by lra. lra.
Qed.

Lemma sumNR_abs sh f : Rabs (sumNR sh f) <= sumNR sh (fun i => Rabs (f i)).
Proof.
  revert f. induction sh as [|n sh IH]; intros f; [rewrite !sumNR_nil; lra|]. rewrite !sumNR_cons.
  eapply Rle_trans; [apply sumR_abs|]. apply sumR_le. intros i Hi. apply (IH (fun l => f (i :: l))).
Qed.
(** sum of the absolute coordinate differences *)
Fixpoint l1 (p q : list R) : R := match p, q with a :: p, b :: q => Rabs (a - b) + l1 p q | _, _ => 0 end.
Lemma l1_nonneg p : forall q, 0 <= l1 p q.
Proof. induction p as [|a p IH]; intros [|b q]; simpl; try lra. assert (H := Rabs_pos (a - b)). specialize (IH q). lra. Qed.
Lemma dirichletN_le1 sh : pos_shape sh -> forall p y, Cmod (dirichletN sh p y) <= 1.
Proof.
  induction sh as [|n sh IH]; intros Hp [|t p] [|j y]; cbn [dirichletN]; try (rewrite Cmod_R, Rabs_R1; lra).
  apply pos_shape_cons in Hp. destruct Hp as [Hn Hp]. rewrite Cmod_mult. specialize (IH Hp p y). assert (D := dirichlet_le1 n (t - IZR j) Hn).
  assert (A := Cmod_ge_0 (dirichlet n (t - IZR j))). assert (B := Cmod_ge_0 (dirichletN sh p y)). nra.
Qed.
Lemma dirichletN_lip sh : pos_shape sh -> forall p q y, length p = length q ->
  Cmod (Cminus (dirichletN sh p y) (dirichletN sh q y)) <= PI * l1 p q.
Proof.
  assert (P0 := PI_RGT_0).
  induction sh as [|n sh IH]; intros Hp [|t p] [|s q] [|j y] L; cbn [dirichletN length] in *; try discriminate;
    try (replace (Cminus (RtoC 1) (RtoC 1)) with (RtoC 0) by (apply injective_projections; simpl; ring);
         rewrite Cmod_0; apply Rmult_le_pos; [lra|apply l1_nonneg]).
  apply pos_shape_cons in Hp. destruct Hp as [Hn Hp]. injection L as L.
  set (a := dirichlet n (t - IZR j)). set (b := dirichlet n (s - IZR j)). set (A := dirichletN sh p y). set (B := dirichletN sh q y).
  replace (Cminus (Cmult a A) (Cmult b B)) with (Cplus (Cmult a (Cminus A B)) (Cmult (Cminus a b) B)) by ring.
  eapply Rle_trans; [apply Cmod_triangle|]. rewrite !Cmod_mult. cbn [l1].
  assert (H1 := dirichlet_le1 n (t - IZR j) Hn). fold a in H1. assert (H2 := dirichletN_le1 sh Hp q y). fold B in H2.
  assert (H3 := dirichlet_lip n (t - IZR j) (s - IZR j) Hn). fold a b in H3. replace (t - IZR j - (s - IZR j)) with (t - s) in H3 by ring.
  assert (H4 := IH Hp p q y L). fold A B in H4.
  assert (N1 := Cmod_ge_0 (Cminus A B)). assert (N2 := Cmod_ge_0 (Cminus a b)). assert (N3 := Cmod_ge_0 a). assert (N4 := Cmod_ge_0 B).
  nra.
Qed.
(** the trigonometric interpolant changes by at most pi * (sum of |samples|) per unit of distance *)
Lemma trig_interpR_lip sh f p q : pos_shape sh -> length p = length q ->
  Rabs (trig_interpR sh f p - trig_interpR sh f q) <= PI * sumNR sh (fun y => Rabs (f y)) * l1 p q.
Proof.
  intros Hp L. unfold trig_interpR. rewrite <- sumNR_minus. eapply Rle_trans; [apply sumNR_abs|].
  replace (PI * sumNR sh (fun y => Rabs (f y)) * l1 p q) with (sumNR sh (fun y => (PI * l1 p q) * Rabs (f y))) by (rewrite sumNR_scal; ring).
  apply sumNR_le. intros y Hy. rewrite <- Rmult_minus_distr_l, Rabs_mult, Rmult_comm. apply Rmult_le_compat_r; [apply Rabs_pos|].
  eapply Rle_trans; [|apply (dirichletN_lip sh Hp p q y L)].
  assert (E : Re (dirichletN sh p y) - Re (dirichletN sh q y) = Re (Cminus (dirichletN sh p y) (dirichletN sh q y))) by reflexivity.
  rewrite E. eapply Rle_trans; [|apply Rmax_Cmod]. apply Rmax_l.
Qed.
