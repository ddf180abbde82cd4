(** Properties C45-C50, C71, C72 (continued): cross_correlation_shifts, second_derivative *)
From Coq Require Import ZArith Lia List Reals Lra Bool.
From Coquelicot Require Import Complex.
From Verif Require Import Base NDim DFT Kernel Py M_fast_ffts M_shift M_convolve M_correlate Arg M_chi2 M_xcorr
  Sum2 Spec2 Spec3 L_correlate L_chi2 L_chi2shift L_fshift L_xcorr P_chi2errors P_xcorr.
Import ListNotations.
Open Scope R_scope.

(** *** C47: the sub-pixel refinement *)
(** The cross-correlation is a quadratic with gradient (p, q) and Hessian (a b; b d) on the 3 x 3 shifts around its strict
    maximum (sy, sx); (u, v) is the vertex of that quadratic.  The result is the vertex exactly when the gradient vanishes
    or the Hessian is a multiple of the identity. *)
Theorem C47_refinement_exact_iff :
  forall e agpy im1 im2 er1 er2 zeromean nthreads use_np allow_huge ny nx sy sx c p q a b d u v,
  shape im1 = [ny; nx] -> shape im2 = [ny; nx] -> size_ok e allow_huge ny nx -> errim_ok er1 ny nx -> errim_ok er2 ny nx ->
  Z.even ny = true -> Z.even nx = true -> interior_shift ny sy -> interior_shift nx sx ->
  let f := prep zeromean im1 ny nx in let g := prep zeromean im2 ny nx in
  best_roll ny nx f g sy sx -> c <> 0 ->
  (forall i j, (-1 <= i <= 1)%Z -> (-1 <= j <= 1)%Z -> ccf ny nx f g (sy + i) (sx + j) =
     c + p * IZR i + q * IZR j + a / 2 * IZR i ^ 2 + b * IZR i * IZR j + d / 2 * IZR j ^ 2) ->
  a * d - b ^ 2 <> 0 -> a * u + b * v = - p -> b * u + d * v = - q ->
  exists x y,
    cross_correlation_shifts e agpy im1 im2 er1 er2 None false false zeromean BWrap nthreads use_np allow_huge = Ok [XF x; XF y] /\
    (x = IZR sx + v /\ y = IZR sy + u <-> (p = 0 /\ q = 0) \/ (a = d /\ b = 0)).
Proof.
  intros e agpy im1 im2 er1 er2 zm nt np huge ny nx sy sx c p q a b d u v H1 H2 Hh He1 He2 Ey Ex Iy Ix f g Hb Hc Hq Hd Hu Hv.
  assert (By := interior_bounds ny sy Iy). assert (Bx := interior_bounds nx sx Ix).
  assert (Np := size_pos ny nx ltac:(lia) ltac:(lia)). set (N := IZR (ny * nx)) in *.
  assert (C0 : ccf ny nx f g sy sx = c).
  { replace sy with (sy + 0)%Z at 1 by lia. replace sx with (sx + 0)%Z at 1 by lia. rewrite Hq by lia. simpl. lra. }
  assert (R := xcorr_interior e agpy im1 im2 er1 er2 false zm nt np huge ny nx sy sx). cbv zeta in R. fold f g N in R.
  rewrite R by (auto; rewrite C0; auto). clear R.
  set (K := fun i j => ccf ny nx f g (sy + i) (sx + j) / N).
  change (ccf ny nx f g (sy + 0) (sx + -1) / N) with (K 0%Z (-1)%Z). change (ccf ny nx f g (sy + 0) (sx + 1) / N) with (K 0%Z 1%Z).
  change (ccf ny nx f g (sy + -1) (sx + 0) / N) with (K (-1)%Z 0%Z). change (ccf ny nx f g (sy + 1) (sx + 0) / N) with (K 1%Z 0%Z).
  change (ccf ny nx f g (sy + -1) (sx + 1) / N) with (K (-1)%Z 1%Z). change (ccf ny nx f g (sy + 1) (sx + -1) / N) with (K 1%Z (-1)%Z).
  change (ccf ny nx f g (sy + -1) (sx + -1) / N) with (K (-1)%Z (-1)%Z). change (ccf ny nx f g (sy + 1) (sx + 1) / N) with (K 1%Z 1%Z).
  change (ccf ny nx f g (sy + 0) (sx + 0) / N) with (K 0%Z 0%Z).
  assert (V : forall i j, (-1 <= i <= 1)%Z -> (-1 <= j <= 1)%Z -> K i j =
     (c + p * IZR i + q * IZR j + a / 2 * IZR i ^ 2 + b * IZR i * IZR j + d / 2 * IZR j ^ 2) / N) by (intros; unfold K; rewrite Hq; auto).
  replace ((K 0%Z (-1)%Z - K 0%Z 1%Z) / 2) with (- q / N) by (rewrite !V by lia; field; lra).
  replace ((K (-1)%Z 0%Z - K 1%Z 0%Z) / 2) with (- p / N) by (rewrite !V by lia; field; lra).
  replace (K 0%Z 1%Z + K 0%Z (-1)%Z - 2 * K 0%Z 0%Z) with (d / N) by (rewrite !V by lia; field; lra).
  replace (K (-1)%Z 0%Z + K 1%Z 0%Z - 2 * K 0%Z 0%Z) with (a / N) by (rewrite !V by lia; field; lra).
  replace (1 / 4 * (K (-1)%Z 1%Z + K 1%Z (-1)%Z - K (-1)%Z (-1)%Z - K 1%Z 1%Z)) with (- b / N) by (rewrite !V by lia; field; lra).
  assert (D : (- b / N) ^ 2 - a / N * (d / N) <> 0).
  { replace ((- b / N) ^ 2 - a / N * (d / N)) with (- (a * d - b ^ 2) * / N ^ 2) by (field; lra).
    apply Rmult_integral_contrapositive_currified; [lra|]. apply Rinv_neq_0_compat, pow_nonzero. lra. }
  rewrite !xdiv_ok by exact D. cbn [xnegadd]. unfold half_if_odd. rewrite <- !Z.negb_even, Ey, Ex. cbn [negb].
  do 2 eexists. split; [reflexivity|].
  assert (Eu : u = (b * q - d * p) / (a * d - b ^ 2)).
  { apply (Rmult_eq_reg_r (a * d - b ^ 2)); [|exact Hd]. replace ((b * q - d * p) / (a * d - b ^ 2) * (a * d - b ^ 2)) with (b * q - d * p) by (field; auto).
    replace p with (- (a * u + b * v)) by lra. replace q with (- (b * u + d * v)) by lra. ring. }
  assert (Ev : v = (b * p - a * q) / (a * d - b ^ 2)).
  { apply (Rmult_eq_reg_r (a * d - b ^ 2)); [|exact Hd]. replace ((b * p - a * q) / (a * d - b ^ 2) * (a * d - b ^ 2)) with (b * p - a * q) by (field; auto).
    replace p with (- (a * u + b * v)) by lra. replace q with (- (b * u + d * v)) by lra. ring. }
  replace ((d / N * (- q / N) - - p / N * (- b / N)) / ((- b / N) ^ 2 - a / N * (d / N))) with ((d * q + p * b) / (a * d - b ^ 2)).
  2:{ field; repeat split; first [exact Hd | lra | intros E; apply Hd; simpl in E |- *; lra | idtac]. }
  replace ((a / N * (- p / N) - - q / N * (- b / N)) / ((- b / N) ^ 2 - a / N * (d / N))) with ((a * p + q * b) / (a * d - b ^ 2)).
  2:{ field; repeat split; first [exact Hd | lra | intros E; apply Hd; simpl in E |- *; lra | idtac]. }
  rewrite Eu, Ev. set (h := a * d - b ^ 2) in *.
  split.
  - intros [Gx Gy].
    assert (G1 : (d - a) * q + 2 * b * p = 0).
    { assert (G : (d * q + p * b) / h = - ((b * p - a * q) / h)) by lra.
      apply (Rmult_eq_compat_r h) in G. replace ((d * q + p * b) / h * h) with (d * q + p * b) in G by (field; auto).
      replace (- ((b * p - a * q) / h) * h) with (a * q - b * p) in G by (field; auto). lra. }
    assert (G2 : (a - d) * p + 2 * b * q = 0).
    { assert (G : (a * p + q * b) / h = - ((b * q - d * p) / h)) by lra.
      apply (Rmult_eq_compat_r h) in G. replace ((a * p + q * b) / h * h) with (a * p + q * b) in G by (field; auto).
      replace (- ((b * q - d * p) / h) * h) with (d * p - b * q) in G by (field; auto). lra. }
    assert (G3 : ((a - d) ^ 2 + (2 * b) ^ 2) * (p ^ 2 + q ^ 2) = 0).
    { replace (((a - d) ^ 2 + (2 * b) ^ 2) * (p ^ 2 + q ^ 2)) with (((d - a) * q + 2 * b * p) ^ 2 + ((a - d) * p + 2 * b * q) ^ 2) by ring.
      rewrite G1, G2. ring. }
    assert (SQ : forall s t, s ^ 2 + t ^ 2 = 0 -> s = 0 /\ t = 0).
    { intros s t E. assert (0 <= s ^ 2) by apply pow2_ge_0. assert (0 <= t ^ 2) by apply pow2_ge_0.
      assert (Z : forall r, r ^ 2 = 0 -> r = 0) by (intros r Er; simpl in Er; rewrite Rmult_1_r in Er; apply Rmult_integral in Er; tauto).
      split; apply Z; lra. }
    apply Rmult_integral in G3. destruct G3 as [G3|G3]; apply SQ in G3; [right|left]; lra.
  - intros [[-> ->]|[-> ->]]; split; field; auto.
Qed.
Print Assumptions C47_refinement_exact_iff.

(** correlation with a single bright pixel *)
Definition dot (ny nx a b : Z) : arr num := mk2 ny nx (fun y x => Fin (if ((y =? a) && (x =? b))%Z then 1 else 0)).
Lemma ccf_delta ny nx f g a b s t : (0 <= a < ny)%Z -> (0 <= b < nx)%Z ->
  (forall y x, (0 <= y < ny)%Z -> (0 <= x < nx)%Z -> f y x = if ((y =? a) && (x =? b))%Z then 1 else 0) ->
  ccf ny nx f g s t = g ((a + s) mod ny)%Z ((b + t) mod nx)%Z.
Proof.
  intros Ha Hb Hf. assert (Hy : (0 < ny)%Z) by lia. assert (Hx : (0 < nx)%Z) by lia.
  assert (M1 := Z.mod_pos_bound (a + s) ny Hy). assert (M2 := Z.mod_pos_bound (b + t) nx Hx).
  assert (K : forall n c r i, (0 < n)%Z -> (0 <= c < n)%Z -> (0 <= i < n)%Z -> ((i - r) mod n = c)%Z -> i = ((c + r) mod n)%Z).
  { intros n c r i Hn Hc Hi E. subst c. rewrite Zplus_mod_idemp_l. replace (i - r + r)%Z with i by lia. rewrite Z.mod_small; auto. }
  assert (K' : forall n c r, (0 < n)%Z -> (0 <= c < n)%Z -> (((c + r) mod n - r) mod n = c)%Z).
  { intros n c r Hn Hc. rewrite Zminus_mod_idemp_l. replace (c + r - r)%Z with c by lia. apply Z.mod_small; auto. }
  unfold ccf, pixel_sum.
  rewrite (sumR_single ny _ ((a + s) mod ny)%Z M1).
  - rewrite (sumR_single nx _ ((b + t) mod nx)%Z M2).
    + rewrite Hf by (apply Z.mod_pos_bound; auto). rewrite !K' by auto. rewrite !Z.eqb_refl. simpl. ring.
    + intros j Hj Nj. rewrite Hf by (apply Z.mod_pos_bound; auto). destruct (Z.eqb_spec ((j - t) mod nx) b) as [E|E].
      * exfalso. apply Nj. apply K; auto.
      * rewrite andb_false_r. ring.
  - intros i Hi Ni. apply sumR_const0. intros j Hj. rewrite Hf by (apply Z.mod_pos_bound; auto).
    destruct (Z.eqb_spec ((i - s) mod ny) a) as [E|E]; [exfalso; apply Ni; apply K; auto|simpl; ring].
Qed.

(** a 4 x 4 image whose values around pixel (1, 1) are 10 + v - u^2 - 2 v^2 *)
Definition quad_px (y x : Z) : Z := if ((y =? 3) || (x =? 3))%Z then 0%Z else (10 + (x - 1) - (y - 1) * (y - 1) - 2 * (x - 1) * (x - 1))%Z.
Definition quad : arr num := mk2 4 4 (fun y x => Fin (IZR (quad_px y x))).
Lemma mod4 a : (a mod 4 = 0 \/ a mod 4 = 1 \/ a mod 4 = 2 \/ a mod 4 = 3)%Z.
Proof. assert (H := Z.mod_pos_bound a 4 ltac:(lia)). lia. Qed.
Lemma dot_prep ny nx a b y x : prep false (dot ny nx a b) ny nx y x = if ((y =? a) && (x =? b))%Z then 1 else 0.
Proof. reflexivity. Qed.
Lemma quad_ccf s t : ccf 4 4 (prep false (dot 4 4 1 1) 4 4) (prep false quad 4 4) s t = IZR (quad_px ((1 + s) mod 4) ((1 + t) mod 4)).
Proof. rewrite (ccf_delta 4 4 _ _ 1 1) by (try lia; intros; apply dot_prep). reflexivity. Qed.

Lemma quad_best : best_roll 4 4 (prep false (dot 4 4 1 1) 4 4) (prep false quad 4 4) 0 0.
Proof.
  intros s t H. rewrite !quad_ccf. apply IZR_lt. rewrite !Z.sub_0_r in H.
  assert (G : ((1 + s) mod 4 <> 1 \/ (1 + t) mod 4 <> 1)%Z).
  { assert (Q : forall a, (a mod 4 <> 0 -> (1 + a) mod 4 <> 1)%Z) by (intros a; Z.to_euclidean_division_equations; lia).
    destruct H as [H|H]; [left|right]; auto. }
  destruct (mod4 (1 + s)) as [D | [D | [D | D]]]; destruct (mod4 (1 + t)) as [E | [E | [E | E]]]; rewrite D, E in *; try reflexivity; lia.
Qed.

(** the refinement does not return the vertex of an exactly quadratic peak: 1/2 is reported instead of 1/4 *)
Theorem C47_refinement_refuted :
  exists im1 im2 : arr num, forall e agpy nthreads use_np,
    (forall i j, (-1 <= i <= 1)%Z -> (-1 <= j <= 1)%Z -> ccf 4 4 (prep false im1 4 4) (prep false im2 4 4) i j =
       10 + IZR j - IZR i ^ 2 - 2 * IZR j ^ 2) /\
    best_roll 4 4 (prep false im1 4 4) (prep false im2 4 4) 0 0 /\
    exists y, cross_correlation_shifts e agpy im1 im2 None None None false false false BWrap nthreads use_np true = Ok [XF (1 / 2); XF y].
Proof.
  exists (dot 4 4 1 1), quad. intros e agpy nt np.
  assert (Q : forall i j, (-1 <= i <= 1)%Z -> (-1 <= j <= 1)%Z -> ccf 4 4 (prep false (dot 4 4 1 1) 4 4) (prep false quad 4 4) i j =
     10 + IZR j - IZR i ^ 2 - 2 * IZR j ^ 2).
  { intros i j Hi Hj. rewrite quad_ccf. assert (A : (i = -1 \/ i = 0 \/ i = 1)%Z) by lia. assert (B : (j = -1 \/ j = 0 \/ j = 1)%Z) by lia.
    destruct A as [-> | [-> | ->]]; destruct B as [-> | [-> | ->]]; cbv [quad_px Z.modulo Z.div_eucl Z.pos_div_eucl Z.eqb Z.add Z.mul Z.sub Z.opp Z.leb Z.ltb Z.compare Pos.compare Pos.compare_cont Pos.add Pos.mul Z.pos_sub Pos.eqb orb snd Pos.pred_double Z.double Z.succ_double Z.pred_double]; simpl; lra. }
  split; [exact Q|]. split; [apply quad_best|].
  assert (R := xcorr_interior e agpy (dot 4 4 1 1) quad None None false false nt np true 4 4 0 0). cbv zeta in R.
  rewrite R; clear R; simpl; auto; try (unfold interior_shift; cbn; lia).
  2:{ left; reflexivity. }
  2:{ apply quad_best. }
  2:{ rewrite Q by lia. simpl. lra. }
  rewrite !Q by lia. change (half_if_odd 4) with 0.
  match goal with |- context [Req_EM_T ?a 0] => destruct (Req_EM_T a 0) as [E|E]; [exfalso; simpl in E; lra|] end.
  eexists. cbn [xnegadd]. f_equal. f_equal. f_equal. simpl. field.
Qed.
Print Assumptions C47_refinement_refuted.

Example C47_nonvacuous : exists im1 im2 : arr num,
  let f := prep false im1 4 4 in let g := prep false im2 4 4 in
  shape im1 = [4; 4]%Z /\ shape im2 = [4; 4]%Z /\ interior_shift 4 0 /\ best_roll 4 4 f g 0 0 /\
  (forall i j, (-1 <= i <= 1)%Z -> (-1 <= j <= 1)%Z -> ccf 4 4 f g i j =
     10 + 0 * IZR i + 1 * IZR j + -2 / 2 * IZR i ^ 2 + 0 * IZR i * IZR j + -4 / 2 * IZR j ^ 2).
Proof.
  exists (dot 4 4 1 1), quad. cbv zeta. split; [reflexivity|]. split; [reflexivity|]. split; [unfold interior_shift; cbn; lia|]. split; [apply quad_best|].
  intros i j Hi Hj. rewrite quad_ccf. assert (A : (i = -1 \/ i = 0 \/ i = 1)%Z) by lia. assert (B : (j = -1 \/ j = 0 \/ j = 1)%Z) by lia.
  destruct A as [-> | [-> | ->]]; destruct B as [-> | [-> | ->]]; cbv [quad_px Z.modulo Z.div_eucl Z.pos_div_eucl Z.eqb Z.add Z.mul Z.sub Z.opp Z.leb Z.ltb Z.compare Pos.compare Pos.compare_cont Pos.add Pos.mul Z.pos_sub Pos.eqb orb snd Pos.pred_double Z.double Z.succ_double Z.pred_double]; simpl; lra.
Qed.

(** a single bright pixel has no symmetry *)
Lemma dot_no_symmetry ny nx a b : (0 <= a < ny)%Z -> (0 <= b < nx)%Z -> no_symmetry ny nx (prep false (dot ny nx a b) ny nx).
Proof.
  intros Ha Hb s t H. specialize (H a b Ha Hb). rewrite !dot_prep in H. rewrite !Z.eqb_refl in H. cbn [andb] in H.
  destruct (Z.eqb_spec ((a - s) mod ny) a) as [E1|E1]; [|simpl in H; lra].
  destruct (Z.eqb_spec ((b - t) mod nx) b) as [E2|E2]; [|simpl in H; lra].
  assert (G : forall n c r, (0 <= c < n)%Z -> ((c - r) mod n = c)%Z -> (r mod n = 0)%Z).
  { intros n c r Hc E. apply Z.mod_divide; [lia|]. exists ((c - r) / n * -1)%Z. assert (D := Z.div_mod (c - r) n ltac:(lia)). lia. }
  split; eapply G; eauto.
Qed.

(** 6 x 8 image with one bright pixel, rolled by (1, -2) *)
Example C45_nonvacuous : let im1 := dot 6 8 2 3 in let im2 := dot 6 8 3 1 in
  is_roll im1 im2 6 8 1 (-2) /\ no_symmetry 6 8 (prep false im1 6 8) /\ interior_shift 6 1 /\ interior_shift 8 (-2) /\
  forall e, cross_correlation_shifts e None im1 im2 None None None false false false BWrap 1 true true = Ok [XF (-2); XF 1].
Proof.
  cbv zeta.
  assert (R : is_roll (dot 6 8 2 3) (dot 6 8 3 1) 6 8 1 (-2)).
  { split; [reflexivity|]. split; [reflexivity|]. intros y x Hy Hx. cbn [dot mk2 get]. f_equal.
    assert (Y : ((y =? 3) = ((y - 1) mod 6 =? 2))%Z).
    { destruct (Z.eqb_spec y 3) as [->|N]; [reflexivity|]. symmetry. apply Z.eqb_neq. intros E. apply N. Z.to_euclidean_division_equations; lia. }
    assert (X : ((x =? 1) = ((x - -2) mod 8 =? 3))%Z).
    { destruct (Z.eqb_spec x 1) as [->|N]; [reflexivity|]. symmetry. apply Z.eqb_neq. intros E. apply N. Z.to_euclidean_division_equations; lia. }
    rewrite Y, X. reflexivity. }
  assert (S := dot_no_symmetry 6 8 2 3 ltac:(lia) ltac:(lia)).
  assert (I1 : interior_shift 6 1) by (unfold interior_shift; cbn; lia). assert (I2 : interior_shift 8 (-2)) by (unfold interior_shift; cbn; lia).
  split; [exact R|]. split; [exact S|]. split; [exact I1|]. split; [exact I2|]. intros e.
  rewrite (C45_roll_recovered_even e None _ _ None None false 1 true true 6 8 1 (-2)); auto; try (left; reflexivity); simpl; auto.
Qed.
Example C46_nonvacuous : let im1 := dot 5 7 2 3 in
  is_roll im1 im1 5 7 0 0 /\ no_symmetry 5 7 (prep false im1 5 7) /\ interior_shift 5 0 /\ interior_shift 7 0 /\
  forall e, cross_correlation_shifts e None im1 im1 None None None false false false BWrap 1 true true = Ok [XF (1 / 2); XF (1 / 2)].
Proof.
  cbv zeta.
  assert (R : is_roll (dot 5 7 2 3) (dot 5 7 2 3) 5 7 0 0).
  { split; [reflexivity|]. split; [reflexivity|]. intros y x Hy Hx. rewrite !Z.sub_0_r, !Z.mod_small by auto. reflexivity. }
  assert (S := dot_no_symmetry 5 7 2 3 ltac:(lia) ltac:(lia)).
  assert (I1 : interior_shift 5 0) by (unfold interior_shift; cbn; lia). assert (I2 : interior_shift 7 0) by (unfold interior_shift; cbn; lia).
  split; [exact R|]. split; [exact S|]. split; [exact I1|]. split; [exact I2|]. intros e.
  destruct (C45_roll_result_all_sizes e None _ _ None None false false 1 true true 5 7 0 0 R (or_introl eq_refl) I I I1 I2 S) as [rest [-> L]].
  destruct rest; [|discriminate]. change (half_if_odd 7) with (1 / 2). change (half_if_odd 5) with (1 / 2). rewrite !Rplus_0_l. reflexivity.
Qed.

(** a roll that puts the peak on the last row is not recovered: half a pixel off *)
Theorem C45_last_row_refuted :
  exists im1 im2 : arr num, is_roll im1 im2 4 4 (-2) 0 /\ no_symmetry 4 4 (prep false im1 4 4) /\
  forall e agpy nthreads use_np,
    cross_correlation_shifts e agpy im1 im2 None None None false false false BWrap nthreads use_np true = Ok [XF 0; XF (- (5 / 2))].
Proof.
  exists (dot 4 4 1 1), (dot 4 4 3 1).
  assert (R : is_roll (dot 4 4 1 1) (dot 4 4 3 1) 4 4 (-2) 0).
  { split; [reflexivity|]. split; [reflexivity|]. intros y x Hy Hx. cbn [dot mk2 get]. f_equal.
    assert (Y : ((y =? 3) = ((y - -2) mod 4 =? 1))%Z).
    { destruct (Z.eqb_spec y 3) as [->|N]; [reflexivity|]. symmetry. apply Z.eqb_neq. intros E. apply N. Z.to_euclidean_division_equations; lia. }
    rewrite Z.sub_0_r, (Z.mod_small x) by auto. rewrite Y. reflexivity. }
  split; [exact R|]. split; [apply dot_no_symmetry; lia|]. intros e agpy nt np.
  rewrite (xcorr_eq e agpy _ _ None None None false false false nt np true 4 4) by (simpl; auto; try lia; left; reflexivity).
  set (f := prep false (dot 4 4 1 1) 4 4). set (g := prep false (dot 4 4 3 1) 4 4).
  change (fun k l => _) with (cmap 4 4 f g).
  assert (B : best_roll 4 4 f g (-2) 0).
  { apply best_of_roll; try lia; [|apply dot_no_symmetry; lia]. intros. apply prep_roll with (dy := (-2)%Z) (dx := 0%Z); auto; lia. }
  assert (V : forall k l, cmap 4 4 f g k l = (if ((1 + (1 - k)) mod 4 =? 3)%Z then if ((1 + (1 - l)) mod 4 =? 1)%Z then 1 else 0 else 0) / 16).
  { intros k l. unfold cmap. rewrite (ccf_delta 4 4 f g 1 1) by (try lia; intros; apply dot_prep).
    change ((4 - 1) / 2)%Z with 1%Z. change (IZR (4 * 4)) with 16. f_equal. unfold g. rewrite dot_prep.
    destruct ((1 + (1 - k)) mod 4 =? 3)%Z, ((1 + (1 - l)) mod 4 =? 1)%Z; reflexivity. }
  unfold xtail. rewrite (best_argmax 4 4 f g (-2) 0) by (auto; cbn; lia).
  change ((4 - 1) / 2 - -2)%Z with 3%Z. change ((4 - 1) / 2 - 0)%Z with 1%Z.
  rewrite derivs_pos by lia. unfold zext. rewrite !V.
  cbn [Z.eqb Z.ltb Z.compare Pos.eqb Pos.compare Pos.compare_cont]. 
  cbv [Z.modulo Z.div_eucl Z.pos_div_eucl Z.eqb Z.add Z.mul Z.sub Z.opp Z.leb Z.ltb Z.compare Pos.compare Pos.compare_cont Pos.add Pos.mul Z.pos_sub Pos.eqb orb snd Pos.pred_double Z.double Z.succ_double Z.pred_double Pos.succ].
  destruct (Req_EM_T (1 / 16) 0) as [E|E]; [lra|]. cbn [bind].
  match goal with |- context [Req_EM_T ?a 0] => idtac | _ => idtac end.
  rewrite !xdiv_ok by (apply Rlt_not_eq; simpl; lra).
  cbn [xnegadd]. f_equal. change (ccen 4) with (IZR 4 / 2 - IZR 1). f_equal; [|f_equal]; f_equal; simpl; field.
Qed.
Print Assumptions C45_last_row_refuted.
