(** Properties C22-C25: downsample, downsample_axis, downsample_1d, downsample_cube *)
From Coq Require Import ZArith Lia List Reals Lra Bool.
From Verif Require Import Base NDim Py Spec M_downsample L_downsample.
Import ListNotations.
Open Scope Z_scope.

(** *** C22 *)
(** the f*f pixels of block (a,b), column by column: offsets (i,j) with j = 0..f-1 outer and i = 0..f-1 inner *)
Definition block_pixels {A} (img : arr A) (f a b : Z) : list A :=
  flat_map (fun j => map (fun i => g2 img (a * f + i) (b * f + j)) (zrange f)) (zrange f).

Theorem C22_downsample_estimates_blocks :
  forall A B (img : arr A) ys xs f (est : list A -> B),
  shape img = [ys; xs] -> 0 <= ys -> 0 <= xs -> 0 < f ->
  exists out, downsample img f est = Ok out /\ shape out = [ys / f; xs / f] /\
    forall a b, 0 <= a < ys / f -> 0 <= b < xs / f ->
      g2 out a b = est (block_pixels img f a b) /\
      (* every pixel of the block is inside the image *)
      (forall i j, 0 <= i < f -> 0 <= j < f -> inb (shape img) [a * f + i; b * f + j]).
Proof.
  intros A B img ys xs f est Hs Hy Hx Hf.
  destruct (downsample_ok img ys xs f est Hs Hy Hx Hf) as [out [H1 [H2 H3]]].
  exists out. split; [exact H1|]. split; [exact H2|]. intros a b Ha Hb. split.
  - rewrite H3. f_equal. unfold block_list, block_pixels. apply flat_map_ext. intros j. apply map_ext. intros i.
    f_equal; lia.
  - intros i j Hi Hj. rewrite Hs. assert (E1 := Z_div_mod_eq_full ys f). assert (E2 := Z_div_mod_eq_full xs f).
    assert (M1 := Z.mod_pos_bound ys f Hf). assert (M2 := Z.mod_pos_bound xs f Hf). simpl. repeat split; try nia.
Qed.
Print Assumptions C22_downsample_estimates_blocks.

(** distinct output pixels use disjoint blocks, and the blocks cover exactly the cropped image *)
Theorem C22_blocks_partition_cropped_image :
  forall ys xs f y x, 0 < f -> 0 <= ys -> 0 <= xs ->
  (0 <= y < ys - ys mod f /\ 0 <= x < xs - xs mod f <->
   exists a b i j, 0 <= a < ys / f /\ 0 <= b < xs / f /\ 0 <= i < f /\ 0 <= j < f /\ y = a * f + i /\ x = b * f + j) /\
  (forall a b i j a' b' i' j', 0 <= i < f -> 0 <= j < f -> 0 <= i' < f -> 0 <= j' < f ->
     a * f + i = a' * f + i' -> b * f + j = b' * f + j' -> a = a' /\ b = b' /\ i = i' /\ j = j').
Proof.
  intros ys xs f y x Hf Hy Hx. split.
  - rewrite !crop_mul by lia. split.
    + intros [H1 H2]. exists (y / f), (x / f), (y mod f), (x mod f).
      assert (E1 := Z_div_mod_eq_full y f). assert (E2 := Z_div_mod_eq_full x f).
      assert (M1 := Z.mod_pos_bound y f Hf). assert (M2 := Z.mod_pos_bound x f Hf).
      repeat split; try lia; try (apply Z.div_pos; lia); apply Z.div_lt_upper_bound; lia.
    + intros [a [b [i [j [Ha [Hb [Hi [Hj [-> ->]]]]]]]]]. nia.
  - intros a b i j a' b' i' j' Hi Hj Hi' Hj' E1 E2.
    assert (a = a') by nia. assert (b = b') by nia. subst. repeat split; lia.
Qed.
Print Assumptions C22_blocks_partition_cropped_image.

Theorem C22_bad_factors_and_ranks_raise :
  forall A B (img : arr A) f (est : list A -> B),
  (length (shape img) <> 2%nat -> downsample img f est = Raise ValueError) /\
  (length (shape img) = 2%nat -> f = 0 -> downsample img f est = Raise ZeroDivisionError) /\
  (length (shape img) = 2%nat -> f < 0 -> downsample img f est = Raise ValueError).
Proof.
  intros A B img f est. unfold downsample. destruct (shape img) as [|ys [|xs [|z sh]]]; simpl length; repeat split; intros; try lia; auto.
  - subst. reflexivity.
  - destruct (Z.eqb_spec f 0); [lia|]. rewrite (zrange_nonpos f) by lia. reflexivity.
Qed.
Print Assumptions C22_bad_factors_and_ranks_raise.

Example C22_nonvacuous : let img := mk2 5 7 (fun y x => Fin (IZR (y * 7 + x))) in
  shape img = [5; 7] /\ 5 / 2 = 2 /\ 7 / 2 = 3 /\ block_pixels img 2 1 2 = [Fin 18; Fin 25; Fin 19; Fin 26].
Proof. repeat split. Qed.

(** *** C23 *)
Open Scope R_scope.

Theorem C23_constant_image_stays_constant :
  forall (img : arr num) ys xs f c,
  shape img = [ys; xs] -> (0 <= ys)%Z -> (0 <= xs)%Z -> (0 < f)%Z ->
  (forall y x, (0 <= y < ys)%Z -> (0 <= x < xs)%Z -> g2 img y x = Fin c) ->
  exists out, downsample img f nanmean = Ok out /\ shape out = [ys / f; xs / f]%Z /\
    forall a b, (0 <= a < ys / f)%Z -> (0 <= b < xs / f)%Z -> g2 out a b = Fin c.
Proof.
  intros img ys xs f c Hs Hy Hx Hf Hc.
  destruct (C22_downsample_estimates_blocks num num img ys xs f nanmean Hs Hy Hx Hf) as [out [H1 [H2 H3]]].
  destruct (downsample_ok img ys xs f nanmean Hs Hy Hx Hf) as [out' [G1 [G2 G3]]].
  rewrite H1 in G1. injection G1 as <-.
  exists out. split; [exact H1|]. split; [exact H2|]. intros a b Ha Hb.
  destruct (H3 a b Ha Hb) as [_ Hin]. rewrite G3.
  assert (Hall : forall i j, (0 <= i < f)%Z -> (0 <= j < f)%Z -> g2 img (i + a * f) (j + b * f) = Fin c).
  { intros i j Hi Hj. specialize (Hin i j Hi Hj). rewrite Hs in Hin. simpl in Hin. apply Hc; lia. }
  assert (Ec : IZR (nan_count (block_list img f a b)) = IZR (f * f)).
  { rewrite block_count by lia. rewrite (sumR_ext f _ (fun _ => IZR f)).
    - rewrite sumR_const, mult_IZR by lia. ring.
    - intros i Hi. rewrite (sumR_ext f _ (fun _ => 1)); [rewrite sumR_const by lia; ring|].
      intros j Hj. rewrite Hall by auto. reflexivity. }
  assert (Es : nan_sum (block_list img f a b) = IZR (f * f) * c).
  { rewrite block_sum by lia. rewrite (sumR_ext f _ (fun _ => IZR f * c)).
    - rewrite sumR_const, mult_IZR by lia. ring.
    - intros i Hi. rewrite (sumR_ext f _ (fun _ => c)); [rewrite sumR_const by lia; ring|].
      intros j Hj. rewrite Hall by auto. reflexivity. }
  apply eq_IZR in Ec. unfold nanmean. rewrite Ec, Es. destruct (Z.eqb_spec (f * f) 0); [nia|].
  f_equal. field. apply IZR_neq0; auto.
Qed.
Print Assumptions C23_constant_image_stays_constant.

Theorem C23_factor_one_is_identity :
  forall (img : arr num) ys xs, shape img = [ys; xs] -> (0 <= ys)%Z -> (0 <= xs)%Z ->
  exists out, downsample img 1 nanmean = Ok out /\ aeq out img.
Proof.
  intros img ys xs Hs Hy Hx. destruct (downsample_ok img ys xs 1 nanmean Hs Hy Hx) as [out [H1 [H2 H3]]]; [lia|].
  exists out. split; [exact H1|]. split; [rewrite H2, !Z.div_1_r; auto|].
  intros i Hi. rewrite H2 in Hi. apply inb2 in Hi. destruct Hi as [y [x [-> _]]].
  change (g2 out y x = g2 img y x). rewrite H3. unfold block_list. simpl. rewrite !Z.mul_1_r.
  destruct (g2 img y x); unfold nanmean; simpl; auto. f_equal. lra.
Qed.
Print Assumptions C23_factor_one_is_identity.

(** NaN pixels are ignored: the output is the mean over the valid pixels of the block, NaN iff there are none.
    valid/value: indicator and value of a pixel, written independently of the model *)
Definition is_valid (x : num) : R := match x with Fin _ => 1 | NaN => 0 end.
Definition value_or_0 (x : num) : R := match x with Fin r => r | NaN => 0 end.
Definition block_total (h : num -> R) (img : arr num) (f a b : Z) : R :=
  sumR f (fun i => sumR f (fun j => h (g2 img (a * f + i)%Z (b * f + j)%Z))).

Theorem C23_mean_over_valid_pixels :
  forall (img : arr num) ys xs f,
  shape img = [ys; xs] -> (0 <= ys)%Z -> (0 <= xs)%Z -> (0 < f)%Z ->
  exists out, downsample img f nanmean = Ok out /\
    forall a b, (0 <= a < ys / f)%Z -> (0 <= b < xs / f)%Z ->
      (g2 out a b = NaN <-> forall i j, (0 <= i < f)%Z -> (0 <= j < f)%Z -> g2 img (a * f + i)%Z (b * f + j)%Z = NaN) /\
      (forall v, g2 out a b = Fin v ->
         0 < block_total is_valid img f a b /\ v = block_total value_or_0 img f a b / block_total is_valid img f a b) /\
      (forall v lo hi, g2 out a b = Fin v ->
         (forall i j r, (0 <= i < f)%Z -> (0 <= j < f)%Z -> g2 img (a * f + i)%Z (b * f + j)%Z = Fin r -> lo <= r <= hi) ->
         lo <= v <= hi).
Proof.
  intros img ys xs f Hs Hy Hx Hf. destruct (downsample_ok img ys xs f nanmean Hs Hy Hx Hf) as [out [H1 [H2 H3]]].
  exists out. split; [exact H1|]. intros a b Ha Hb. rewrite H3. split; [|split].
  - unfold nanmean. destruct (Z.eqb_spec (nan_count (block_list img f a b)) 0) as [E|E].
    + rewrite nan_count_0 in E. split; auto. intros _ i j Hi Hj. apply E. apply block_list_In. exists i, j.
      repeat split; try lia. f_equal; lia.
    + split; [discriminate|]. intros H. exfalso. apply E. apply nan_count_0. intros x Hin. apply block_list_In in Hin.
      destruct Hin as [i [j [Hi [Hj ->]]]]. rewrite <- (H i j Hi Hj). f_equal; lia.
  - intros v Hv. apply nanmean_fin in Hv. destruct Hv as [Hc Hv].
    assert (B1 : block_total is_valid img f a b = IZR (nan_count (block_list img f a b))).
    { rewrite block_count by lia. apply sumR_ext. intros i Hi. apply sumR_ext. intros j Hj.
      unfold is_valid, valid1. replace (a * f + i)%Z with (i + a * f)%Z by ring. replace (b * f + j)%Z with (j + b * f)%Z by ring. reflexivity. }
    assert (B2 : block_total value_or_0 img f a b = nan_sum (block_list img f a b)).
    { rewrite block_sum by lia. apply sumR_ext. intros i Hi. apply sumR_ext. intros j Hj.
      replace (a * f + i)%Z with (i + a * f)%Z by ring. replace (b * f + j)%Z with (j + b * f)%Z by ring. reflexivity. }
    rewrite B1, B2. split; [apply IZR_lt; auto|]. rewrite <- Hv. field. apply IZR_neq0; lia.
  - intros v lo hi Hv Hb'. apply nanmean_fin in Hv. destruct Hv as [Hc Hv].
    assert (Hbd := nan_sum_bounds (block_list img f a b) lo hi).
    assert (Hc' : 0 < IZR (nan_count (block_list img f a b))) by (apply IZR_lt; auto).
    assert (G : forall r, In (Fin r) (block_list img f a b) -> lo <= r <= hi).
    { intros r Hin. apply block_list_In in Hin. destruct Hin as [i [j [Hi [Hj E]]]]. apply (Hb' i j); auto.
      rewrite E. f_equal; lia. }
    specialize (Hbd G). rewrite <- Hv in Hbd. rewrite (Rmult_comm v) in Hbd. destruct Hbd as [L1 L2].
    apply Rmult_le_reg_l in L1, L2; auto.
Qed.
Print Assumptions C23_mean_over_valid_pixels.

Definition mean2 (img : arr R) (ys xs : Z) : R := sumR ys (fun y => sumR xs (fun x => g2 img y x)) / IZR (ys * xs).

Theorem C23_mean_conserved_when_divisible :
  forall (img : arr R) p q f,
  shape img = [p * f; q * f]%Z -> (0 < p)%Z -> (0 < q)%Z -> (0 < f)%Z ->
  exists (out : arr R) o, downsample (amap Fin img) f nanmean = Ok o /\ shape o = [p; q] /\
    (forall a b, (0 <= a < p)%Z -> (0 <= b < q)%Z -> g2 o a b = Fin (g2 out a b)) /\
    mean2 out p q = mean2 img (p * f) (q * f).
Proof.
  intros img p q f Hs Hp Hq Hf.
  destruct (downsample_ok (amap Fin img) (p * f) (q * f) f nanmean Hs) as [o [H1 [H2 H3]]]; try nia.
  rewrite !Z.div_mul in H2 by lia.
  set (out := mk2 p q (fun a b => sumR f (fun i => sumR f (fun j => g2 img (i + a * f)%Z (j + b * f)%Z)) / IZR (f * f))).
  exists out, o. split; [exact H1|]. split; [exact H2|].
  assert (Hff : IZR (f * f) <> 0) by (apply IZR_neq0; nia).
  split.
  - intros a b Ha Hb. rewrite H3. unfold nanmean.
    assert (Ec : IZR (nan_count (block_list (amap Fin img) f a b)) = IZR (f * f)).
    { rewrite block_count by lia. rewrite (sumR_ext f _ (fun _ => IZR f)).
      - rewrite sumR_const, mult_IZR by lia. ring.
      - intros i Hi. rewrite (sumR_ext f _ (fun _ => 1)); [rewrite sumR_const by lia; ring|]. reflexivity. }
    apply eq_IZR in Ec. rewrite Ec. destruct (Z.eqb_spec (f * f) 0); [nia|]. f_equal. rewrite block_sum by lia. reflexivity.
  - unfold mean2. rewrite sumR_blocks by lia.
    rewrite (sumR_ext p (fun a => sumR f (fun i => sumR (q * f) (fun x => g2 img (i + a * f)%Z x)))
       (fun a => sumR q (fun b => IZR (f * f) * g2 out a b))).
    + rewrite (sumR_ext p (fun a => sumR q (fun b => IZR (f * f) * g2 out a b)) (fun a => IZR (f * f) * sumR q (fun b => g2 out a b)))
        by (intros; rewrite sumR_scal; reflexivity).
      rewrite sumR_scal, !mult_IZR. field. repeat split; apply IZR_neq0; lia.
    + intros a Ha. rewrite (sumR_ext f _ (fun i => sumR q (fun b => sumR f (fun j => g2 img (i + a * f)%Z (j + b * f)%Z))))
        by (intros; rewrite sumR_blocks by lia; reflexivity).
      rewrite sumR_swap. apply sumR_ext. intros b Hb. unfold out, g2 at 2; simpl. field. auto.
Qed.
Print Assumptions C23_mean_conserved_when_divisible.

Example C23_nonvacuous : let img := mk2 4 4 (fun y x => if (y =? x)%Z then NaN else Fin (IZR (y * 4 + x))) in
  exists out, downsample img 2 nanmean = Ok out /\ g2 out 0 0 = Fin ((4 + (1 + 0)) / IZR 2) /\ shape out = [2; 2]%Z.
Proof. eexists. split; [reflexivity|]. split; reflexivity. Qed.

(** *** C24 *)
(** the pixels of [img] with index [i] except that the coordinate along [ax] runs over lo..lo+k-1 *)
Definition axis_group (img : arr num) (ax : nat) (i : list Z) (lo k : Z) : list num :=
  map (fun t => get img (upd ax (t + lo)%Z i)) (zrange k).

(** [axis] is a valid Python axis number (possibly negative) of an nd-dimensional array, meaning position [ax] *)
Definition axis_means (nd : nat) (axis : Z) (ax : nat) : Prop :=
  (ax < nd)%nat /\ (axis = Z.of_nat ax \/ axis = Z.of_nat ax - Z.of_nat nd)%Z.

Lemma axis_means_norm nd axis ax : axis_means nd axis ax -> norm_axis nd axis = Ok ax.
Proof.
  intros [H1 [->| ->]]; unfold norm_axis.
  - destruct (Z.leb_spec 0 (Z.of_nat ax)); [|lia]. destruct (Z.ltb_spec (Z.of_nat ax) (Z.of_nat nd)); [|lia]. cbn. f_equal. lia.
  - destruct (Z.leb_spec 0 (Z.of_nat ax - Z.of_nat nd)); [lia|]. cbn.
    destruct (Z.ltb_spec (Z.of_nat ax - Z.of_nat nd) 0); [|lia].
    destruct (Z.leb_spec (- Z.of_nat nd) (Z.of_nat ax - Z.of_nat nd)); [|lia]. cbn. f_equal. lia.
Qed.

Theorem C24_truncate_drops_remainder :
  forall B (img : arr num) f axis ax n (est : list num -> B),
  axis_means (ndim img) axis ax -> nth ax (shape img) 0%Z = n -> (0 <= n)%Z -> (0 < f)%Z ->
  exists out, downsample_axis true img f axis est true = Ok out /\ shape out = upd ax (n / f) (shape img) /\
    forall i, inb (shape out) i -> get out i = est (axis_group img ax i (nth ax i 0 * f) f)%Z.
Proof.
  intros B img f axis ax n est Hax Hn Hn0 Hf. apply axis_means_norm in Hax.
  destruct (axis_truncate img f axis ax n est true) as [out [H1 [H2 H3]]]; auto.
  exists out. split; [exact H1|]. split; [exact H2|]. intros i _. apply H3.
Qed.
Print Assumptions C24_truncate_drops_remainder.

Lemma inb_nth sh i ax : inb sh i -> (ax < length sh)%nat -> (0 <= nth ax i 0 < nth ax sh 0)%Z.
Proof.
  revert i ax; induction sh as [|n sh IH]; intros [|x i] [|ax] H Hl; simpl in *; try tauto; try lia. apply IH; [tauto|lia].
Qed.

Theorem C24_default_pads_last_group :
  forall (img : arr num) f axis ax n,
  axis_means (ndim img) axis ax -> nth ax (shape img) 0%Z = n -> (0 <= n)%Z -> (0 < f)%Z ->
  exists out, downsample_axis true img f axis nanmean false = Ok out /\
    shape out = upd ax ((n + f - 1) / f)%Z (shape img) /\
    forall i, inb (shape out) i ->
      get out i = nanmean (axis_group img ax i (nth ax i 0 * f) (Z.min f (n - nth ax i 0 * f)))%Z.
Proof.
  intros img f axis ax n Hax Hn Hn0 Hf. assert (Hl := proj1 Hax). apply axis_means_norm in Hax.
  destruct (axis_pad img f axis ax n nanmean) as [out [H1 [H2 H3]]]; auto.
  exists out. split; [exact H1|]. split; [exact H2|]. intros i Hi.
  assert (Hb := inb_nth _ _ ax Hi). rewrite H2 in Hb. rewrite upd_length, nth_upd in Hb by auto. specialize (Hb Hl).
  assert (Hil := inb_length _ _ Hi). rewrite H2, upd_length in Hil.
  rewrite H3 by auto. unfold axis_group. apply nanmean_padded; auto.
  assert (nth ax i 0 * f <= n - 1 + 0)%Z; [|nia].
  assert (Hq := Z_div_mod_eq_full (n + f - 1) f). assert (Hr := Z.mod_pos_bound (n + f - 1) f Hf). nia.
Qed.
Print Assumptions C24_default_pads_last_group.

Theorem C24_modern_numpy_refuted :
  forall B (img : arr num) f axis ax (est : list num -> B) tr,
  axis_means (ndim img) axis ax -> (0 < f)%Z -> downsample_axis false img f axis est tr = Raise IndexError.
Proof.
  intros B img f axis ax est tr Hax Hf. apply axis_means_norm in Hax. unfold downsample_axis. rewrite Hax. cbn [bind].
  destruct (Z.eqb_spec f 0); [lia|].
  assert (Hm := Z.mod_pos_bound (nth ax (shape img) 0%Z) f Hf).
  destruct (Z.eqb_spec (nth ax (shape img) 0 mod f)%Z 0); cbn [negb bind].
  - destruct (Z.ltb_spec 0 f); [reflexivity|lia].
  - destruct tr; [reflexivity|]. destruct (Z.ltb_spec (f - nth ax (shape img) 0%Z mod f)%Z 0%Z); [lia|]. cbn [bind].
    destruct (Z.ltb_spec 0 f); [reflexivity|lia].
Qed.
Print Assumptions C24_modern_numpy_refuted.

Theorem C24_bad_arguments_raise :
  forall B (img : arr num) f axis (est : list num -> B) tr,
  ((Z.of_nat (ndim img) <= axis \/ axis < - Z.of_nat (ndim img))%Z ->
     forall b, downsample_axis b img f axis est tr = Raise IndexError) /\
  (forall ax, axis_means (ndim img) axis ax ->
     (forall b, f = 0%Z -> downsample_axis b img f axis est tr = Raise ZeroDivisionError) /\
     ((f < 0)%Z -> downsample_axis true img f axis est tr = Raise ValueError)).
Proof.
  intros B img f axis est tr. split.
  - intros H b. unfold downsample_axis, norm_axis.
    destruct (Z.leb_spec 0 axis), (Z.ltb_spec axis (Z.of_nat (ndim img))); cbn [andb];
    destruct (Z.ltb_spec axis 0), (Z.leb_spec (- Z.of_nat (ndim img)) axis); cbn [andb bind]; try lia; reflexivity.
  - intros ax Hax. apply axis_means_norm in Hax. split.
    + intros b ->. unfold downsample_axis. rewrite Hax. reflexivity.
    + intros Hf. unfold downsample_axis. rewrite Hax. cbn [bind]. destruct (Z.eqb_spec f 0); [lia|].
      assert (Hm := Z.mod_neg_bound (nth ax (shape img) 0%Z) f Hf).
      rewrite (zrange_nonpos f) by lia.
      destruct (Z.ltb_spec 0 f); [lia|]. cbn [negb andb map stack_reduce].
      destruct (Z.eqb_spec (nth ax (shape img) 0 mod f)%Z 0); cbn [negb bind]; auto.
      destruct tr; [reflexivity|]. destruct (Z.ltb_spec (f - nth ax (shape img) 0%Z mod f)%Z 0%Z); [reflexivity|lia].
Qed.
Print Assumptions C24_bad_arguments_raise.

Example C24_nonvacuous : let img := mk2 3 5 (fun y x => Fin (IZR (y * 5 + x))) in
  axis_means (ndim img) (-1) 1 /\ nth 1 (shape img) 0%Z = 5%Z /\
  exists out, downsample_axis true img 2 (-1) nanmean false = Ok out /\ shape out = [3; 3]%Z /\
    get out [1; 2]%Z = Fin ((9 + 0) / IZR 1).
Proof. cbv zeta. split; [split; [apply le_n|right; reflexivity]|]. split; [reflexivity|]. eexists. split; [reflexivity|]. split; reflexivity. Qed.

(** *** C25 (refuted) *)
Theorem C25_downsample_1d_always_raises_refuted :
  forall A B (img : arr A) f (est : list A -> B), downsample_1d false img f est = Raise UnboundLocalError.
Proof. reflexivity. Qed.
Print Assumptions C25_downsample_1d_always_raises_refuted.

Theorem C25_downsample_cube_always_raises_refuted :
  forall A (img : arr A) f d, exists e, downsample_cube img f d = Raise e /\
    ((length (shape img) = 3%nat /\ f <> 0%Z /\ (d < 3)%Z) -> e = NameError).
Proof.
  intros A img f d. unfold downsample_cube, ndim.
  destruct ((0 <? d)%Z && (Z.of_nat (length (shape img)) <=? d)%Z) eqn:E.
  - eexists. split; [reflexivity|]. intros [H1 [_ H3]]. apply andb_prop in E. destruct E as [_ E]. rewrite H1 in E. apply Z.leb_le in E. lia.
  - destruct (shape img) as [|a [|b [|c [|z sh]]]]; try (eexists; split; [reflexivity|intros [H _]; simpl in H; discriminate]).
    destruct (Z.eqb_spec f 0); eexists; (split; [reflexivity|]); intros [_ [H _]]; auto; contradiction.
Qed.
Print Assumptions C25_downsample_cube_always_raises_refuted.

(** what downsample_1d computes when the failing assert is compiled away (python -O) *)
Theorem C25_downsample_1d_without_asserts :
  forall A B (img : arr A) n f (est : list A -> B),
  shape img = [n] -> (0 <= n)%Z -> (0 < f)%Z ->
  exists out, downsample_1d true img f est = Ok out /\ shape out = [n / f]%Z /\
    forall a, (0 <= a < n / f)%Z -> g1 out a = est (map (fun i => g1 img (a * f + i)%Z) (zrange f)).
Proof.
  intros A B img n f est Hs Hn Hf. unfold downsample_1d. cbn [negb]. rewrite Hs. cbn [prodZ]. rewrite Z.mul_1_r. destruct (Z.eqb_spec f 0); [lia|].
  destruct (Z.ltb_spec f 0); [lia|]. assert (M := Z.mod_pos_bound n f Hf). rewrite Z.min_r by lia. rewrite crop_mul by auto. assert (0 <= n / f)%Z by (apply Z.div_pos; lia).
  rewrite (stack_reduce_ok est _ [n / f]%Z).
  - eexists. split; [reflexivity|]. split; [reflexivity|]. intros a Ha. unfold g1 at 1; simpl. f_equal. rewrite map_map.
    apply map_ext. intros i. unfold g1; simpl. do 2 f_equal. ring.
  - destruct (zrange_cons f Hf) as [l ->]. discriminate.
  - intros b Hb. apply in_map_iff in Hb. destruct Hb as [i [<- Hi]]. apply zrange_In in Hi. simpl. rewrite slen_exact by auto. reflexivity.
Qed.
Print Assumptions C25_downsample_1d_without_asserts.

Lemma slen_first_last L f : (0 < f)%Z -> (0 <= L)%Z -> slen L 0 f = slen L (f - 1) f -> (L mod f = 0)%Z.
Proof.
  intros Hf HL. unfold slen. replace (L - 0 + f - 1)%Z with (L + (f - 1))%Z by lia. replace (L - (f - 1) + f - 1)%Z with L by lia.
  assert (D := Z.div_mod L f ltac:(lia)). assert (M := Z.mod_pos_bound L f Hf). assert (P := Z.div_pos L f HL Hf).
  destruct (Z.eq_dec (L mod f) 0) as [E|E]; [auto|]. intros H.
  assert (Q : ((L + (f - 1)) / f = L / f + 1)%Z).
  { symmetry. apply Z.div_unique with (r := (L mod f - 1)%Z); [lia|]. lia. }
  rewrite Q in H. lia.
Qed.
(** ... on an array of any rank: the first axis is downsampled, if the number L of samples kept of it is a multiple of the factor; if
    not, ValueError.  L is the axis length, or what [size - size mod factor] leaves of it.  A negative factor gives the estimate of no
    samples. *)
Theorem C25_downsample_1d_without_asserts_any_rank :
  forall A B (img : arr A) n rest f (est : list A -> B),
  shape img = n :: rest -> (0 <= n)%Z -> Forall (fun m => 0 <= m)%Z rest ->
  let L := Z.min n (prodZ (n :: rest) / f * f) in
  ((0 < f)%Z -> (L mod f = 0)%Z -> exists out, downsample_1d true img f est = Ok out /\ shape out = (L / f)%Z :: rest /\
     forall a k, (0 <= a < L / f)%Z -> inb rest k -> get out (a :: k) = est (map (fun i => get img ((a * f + i)%Z :: k)) (zrange f))) /\
  ((0 < f)%Z -> (L mod f <> 0)%Z -> downsample_1d true img f est = Raise ValueError) /\
  ((f < 0)%Z -> exists out, downsample_1d true img f est = Ok out /\ shape out = [] /\ get out [] = est []) /\
  (f = 0%Z -> downsample_1d true img f est = Raise ZeroDivisionError).
Proof.
  intros A B img n rest f est Hs Hn Hr L. unfold downsample_1d. cbn [negb]. rewrite Hs. set (xs := prodZ (n :: rest)) in *.
  assert (X0 : (0 <= xs)%Z).
  { unfold xs. cbn [prodZ]. apply Z.mul_nonneg_nonneg; auto. clear -Hr. induction Hr; cbn [prodZ]; [lia|]. apply Z.mul_nonneg_nonneg; auto. }
  split; [|split; [|split]].
  4:{ intros ->. reflexivity. }
  3:{ intros Hf. destruct (Z.eqb_spec f 0); [lia|]. destruct (Z.ltb_spec f 0); [|lia]. eexists. split; [reflexivity|]. split; reflexivity. }
  all: intros Hf HL; destruct (Z.eqb_spec f 0); [lia|]; destruct (Z.ltb_spec f 0); [lia|];
    replace (Z.min n (xs - xs mod f)) with L by (unfold L; rewrite Z.mod_eq by lia; lia);
    assert (L0 : (0 <= L)%Z) by (unfold L; apply Z.min_glb; [auto|apply Z.mul_nonneg_nonneg; [apply Z.div_pos; lia|lia]]).
  - assert (EL : L = (L / f * f)%Z) by (assert (D := Z.div_mod L f ltac:(lia)); lia). assert (P := Z.div_pos L f L0 Hf).
    rewrite (stack_reduce_ok est _ ((L / f)%Z :: rest)).
    + eexists. split; [reflexivity|]. split; [reflexivity|]. intros a k Ha Hk. cbn [get]. f_equal. rewrite map_map. apply map_ext. intros i. cbn [get]. f_equal. f_equal. ring.
    + destruct (zrange_cons f Hf) as [l ->]. discriminate.
    + intros b Hb. apply in_map_iff in Hb. destruct Hb as [i [<- Hi]]. apply zrange_In in Hi. cbn [shape]. rewrite EL at 1. rewrite slen_exact by auto. reflexivity.
  - assert (H0 : In 0%Z (zrange f)) by (apply zrange_In; lia). assert (H1 : In (f - 1)%Z (zrange f)) by (apply zrange_In; lia).
    unfold stack_reduce. match goal with |- context [map ?g (zrange f)] => set (l := map g (zrange f)) in *; assert (I0 := in_map g _ _ H0); assert (I1 := in_map g _ _ H1) end.
    fold l in I0, I1. destruct l as [|a0 l0] eqn:El; [destruct I0|]. rewrite <- El in *.
    destruct (forallb _ l) eqn:Ef; [|reflexivity]. exfalso. rewrite forallb_forall in Ef. assert (E0 := Ef _ I0). assert (E1 := Ef _ I1). cbv beta in E0, E1.
    destruct (list_eq_dec Z.eq_dec _ (shape a0)) as [S0|]; [|discriminate]. destruct (list_eq_dec Z.eq_dec (shape (Arr (slen L (f - 1) f :: rest) _)) (shape a0)) as [S1|]; [|discriminate].
    cbn [shape] in S0, S1. rewrite <- S1 in S0. injection S0 as S0. apply HL. apply slen_first_last; auto.
Qed.
Print Assumptions C25_downsample_1d_without_asserts_any_rank.
(** 3 x 5 by 2: not possible; 4 x 5 by 2: pairs of rows *)
Example C25_any_rank_nonvacuous :
  downsample_1d true (mk2 3 5 (fun y x => Fin (IZR (y * 5 + x)))) 2 nanmean = Raise ValueError /\
  exists out, downsample_1d true (mk2 4 5 (fun y x => Fin (IZR (y * 5 + x)))) 2 nanmean = Ok out /\ shape out = [2; 5]%Z /\
    get out [1; 3]%Z = nanmean [Fin 13; Fin 18].
Proof.
  split; [reflexivity|]. eexists. split; [reflexivity|]. split; reflexivity.
Qed.

Example C25_nonvacuous : downsample_cube (Arr [2; 4; 4]%Z (fun _ => 0)) 2 0 = Raise NameError.
Proof. reflexivity. Qed.
