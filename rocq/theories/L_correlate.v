(** Lemmas about the model of correlate2d.py *)
From Coq Require Import ZArith Lia List Reals Lra Bool.
From Coquelicot Require Import Complex.
From Verif Require Import Base NDim DFT Kernel Py M_fast_ffts M_shift M_convolve M_correlate Spec L_shift L_convolve Sum2.
Import ListNotations.
Open Scope R_scope.

(** image outside its boundaries: 0 ('fill') or periodic ('wrap') *)
Definition ext_fill (ny nx : Z) (f : Z -> Z -> R) (y x : Z) : R :=
  if ((0 <=? y) && (y <? ny) && (0 <=? x) && (x <? nx))%Z then f y x else 0.
Definition ext_wrap (ny nx : Z) (f : Z -> Z -> R) (y x : Z) : R := f (y mod ny)%Z (x mod nx)%Z.

Lemma prodZ2 a b : prodZ [a; b] = (a * b)%Z.
Proof. unfold prodZ. simpl. lia. Qed.

Lemma correlate2d_ok env gb (im1 im2 : arr num) b nt np huge ny nx my mx :
  shape im1 = [ny; nx] -> shape im2 = [my; mx] -> (0 < ny)%Z -> (0 < nx)%Z -> (0 < my)%Z -> (0 < mx)%Z ->
  b = BWrap /\ (my <= ny)%Z /\ (mx <= nx)%Z \/ b = BFill \/ b = BNone ->
  let N := match b with BWrap => [ny; nx] | _ => newshape true true [ny; nx] [my; mx] end in
  let ext := match b with BWrap => ext_wrap | _ => ext_fill end in
  huge = true \/ (16 * prodZ N <= gb)%Z ->
  exists cc, correlate2d env gb im1 im2 b nt np huge = Ok cc /\ shape cc = [ny; nx] /\
    forall k l, (0 <= k < ny)%Z -> (0 <= l < nx)%Z ->
      g2 cc k l = sum2 my mx (fun i j => nan0 (g2 im2 i j) *
        ext ny nx (fun y x => nan0 (g2 im1 y x)) (k + i - (my - 1) / 2)%Z (l + j - (mx - 1) / 2)%Z).
Proof.
  intros H1 H2 Hy Hx Hmy Hmx Hb N ext Hh.
  assert (Hsh : shapes_ok [ny; nx] [my; mx]) by (repeat split; repeat constructor; auto).
  set (rv := fun i => match i with y :: x :: l => get im2 ((my - 1 - y)%Z :: (mx - 1 - x)%Z :: l) | _ => get im2 i end).
  assert (HN : exists fp pp, match b with BNone | BFill => Ok (true, true) | BWrap => Ok (false, false)
    | BExtend => Raise NotImplementedError | BOther => Raise Unmodelled end = Ok (fp, pp) /\ newshape fp pp [ny; nx] [my; mx] = N).
  { destruct Hb as [[-> [Ha Hb]]|[-> | ->]]; [exists false, false|exists true, true|exists true, true]; split; auto.
    apply newshape_wrap. repeat constructor; auto. }
  destruct HN as [fp [pp [Epad EN]]].
  assert (HpN : pos_shape N) by (rewrite <- EN; apply newshape_pos; auto).
  assert (Hfa : fits (starts N [ny; nx]) [ny; nx] N) by (apply Forall2_fits; rewrite <- EN; apply newshape_ge_array; auto).
  assert (Hfk : fits (starts N [my; mx]) [my; mx] N) by (apply Forall2_fits; rewrite <- EN; apply newshape_ge_kernel; auto).
  assert (Hlt : (negb huge && (gb <? 16 * prodZ N)%Z = false)).
  { destruct Hh as [->|Hh]; [reflexivity|]. destruct (Z.ltb_spec gb (16 * prodZ N)); [lia|]. apply andb_false_r. }
  unfold correlate2d.
  destruct (get_ffts env nt np) as [fftn ifftn] eqn:Ef.
  assert (Ffw : forall a, shape (fftn a) = shape a /\ forall k, get (fftn a) k = dft (shape a) (get a) k).
  { intros a. replace fftn with (fst (get_ffts env nt np)) by (rewrite Ef; auto). apply get_ffts_fwd. }
  assert (Fiv : forall a, shape (ifftn a) = shape a /\ forall k, get (ifftn a) k = idft (shape a) (get a) k).
  { intros a. replace ifftn with (snd (get_ffts env nt np)) by (rewrite Ef; auto). apply get_ffts_inv. }
  unfold rev2. rewrite H2. cbn [bind]. unfold convolve_fft, ndim. cbn [shape]. rewrite H1. cbn [length Nat.eqb negb].
  rewrite Epad. cbn [bind]. rewrite EN, Hlt. unfold check_fft.
  replace (pos_shapeb N) with true by (symmetry; apply pos_shapeb_spec; auto). cbn [bind].
  eexists. split; [reflexivity|]. split; [reflexivity|]. intros k l Hk Hl. unfold g2 at 1. unfold crop_to. cbn [get shape].
  rewrite (proj2 (Fiv _)). cbn [get shape].
  set (X := addl [k; l] (starts N [ny; nx])).
  assert (HX : inb N X) by (apply (fits_addl _ [ny; nx]); auto; simpl; auto).
  rewrite (idft_ext N _ (fun k => Cmult (dft N (embed N [ny; nx] (fun i => RtoC (nan0 (get im1 i))) (RtoC 0)) k)
     (dft N (ifftshiftN N (embed N [my; mx] (fun i => RtoC (nan0 (rv i))) (RtoC 0))) k))).
  2:{ intros q Hq. rewrite !(proj2 (Ffw _)). reflexivity. }
  rewrite conv_core by auto. rewrite Re_sumNC.
  rewrite sum2_sumNR. rewrite <- sum2_rev. apply sum2_ext. intros i j Hi Hj.
  assert (Em : forall A (f : list Z -> A) v, embed N [ny; nx] f v (modl N (subl X (subl [my - 1 - i; mx - 1 - j]%Z (halfl [my; mx])))) =
    match b with BWrap => f [(k + i - (my - 1) / 2) mod ny; (l + j - (mx - 1) / 2) mod nx]%Z
    | _ => if inbb [ny; nx] [k + i - (my - 1) / 2; l + j - (mx - 1) / 2]%Z then f [k + i - (my - 1) / 2; l + j - (mx - 1) / 2]%Z else v end).
  { intros A f v.
    assert (Ei : subl [k; l] (subl [my - 1 - i; mx - 1 - j]%Z (halfl [my; mx])) = [k + i - (my - 1) / 2; l + j - (mx - 1) / 2]%Z).
    { unfold subl, halfl; simpl. f_equal; [|f_equal]; Z.to_euclidean_division_equations; lia. }
    assert (Hfl : b = BFill \/ b = BNone -> embed N [ny; nx] f v (modl N (subl X (subl [my - 1 - i; mx - 1 - j]%Z (halfl [my; mx])))) =
      if inbb [ny; nx] [k + i - (my - 1) / 2; l + j - (mx - 1) / 2]%Z then f [k + i - (my - 1) / 2; l + j - (mx - 1) / 2]%Z else v).
    { intros Hbb. unfold X. rewrite embed_pad.
      - rewrite Ei. reflexivity.
      - rewrite <- EN. destruct Hbb; subst b; injection Epad as <- <-; apply newshape_psf; auto.
      - simpl; auto.
      - simpl; lia.
      - reflexivity. }
    destruct Hb as [[-> [Ha Hb]]|[-> | ->]]; auto.
    assert (EX : X = [k; l]). { unfold X. change N with [ny; nx]. rewrite starts_self. unfold addl, zerosl; simpl. repeat f_equal; lia. }
    rewrite EX, Ei. change N with [ny; nx]. unfold modl; simpl. rewrite embed_self; [reflexivity|].
    simpl. split; [apply Z.mod_pos_bound; auto|split; [apply Z.mod_pos_bound; auto|auto]]. }
  rewrite Em. unfold rv. replace (my - 1 - (my - 1 - i))%Z with i by lia. replace (mx - 1 - (mx - 1 - j))%Z with j by lia.
  unfold g2. unfold ext. destruct Hb as [[-> _]|[-> | ->]]; [simpl; unfold ext_wrap; ring| |];
  unfold ext_fill; simpl inbb; rewrite andb_true_r, !andb_assoc; destruct ((0 <=? k + i - (my - 1) / 2)%Z && _ && _ && _); simpl; ring.
Qed.

Lemma mod_sub_mod n a b : (0 < n)%Z -> ((a - b mod n) mod n = (a - b) mod n)%Z.
Proof. intros. rewrite Zminus_mod_idemp_r. reflexivity. Qed.

(** the same-shape periodic case: correlation with the reference image as the summation variable *)
Lemma correlate2d_wrap env gb (im1 im2 : arr num) nt np huge ny nx :
  shape im1 = [ny; nx] -> shape im2 = [ny; nx] -> (0 < ny)%Z -> (0 < nx)%Z ->
  huge = true \/ (16 * (ny * nx) <= gb)%Z ->
  exists cc, correlate2d env gb im1 im2 BWrap nt np huge = Ok cc /\ shape cc = [ny; nx] /\
    forall k l, (0 <= k < ny)%Z -> (0 <= l < nx)%Z ->
      g2 cc k l = sum2 ny nx (fun i j => nan0 (g2 im2 i j) *
        nan0 (g2 im1 ((i - (ny - 1) / 2 + k) mod ny)%Z ((j - (nx - 1) / 2 + l) mod nx)%Z)).
Proof.
  intros H1 H2 Hy Hx Hh.
  destruct (correlate2d_ok env gb im1 im2 BWrap nt np huge ny nx ny nx H1 H2 Hy Hx Hy Hx) as [cc [E1 [E2 E3]]].
  - left. repeat split; lia.
  - rewrite prodZ2. exact Hh.
  - exists cc. split; [exact E1|]. split; [exact E2|]. intros k l Hk Hl. rewrite E3 by auto. apply sum2_ext. intros i j Hi Hj.
    unfold ext_wrap. do 3 f_equal; f_equal; lia.
Qed.

Lemma correlate2d_huge env gb (im1 im2 : arr num) nt np ny nx :
  shape im1 = [ny; nx] -> shape im2 = [ny; nx] -> (gb < 16 * (ny * nx))%Z ->
  correlate2d env gb im1 im2 BWrap nt np false = Raise ValueError.
Proof.
  intros H1 H2 H. unfold correlate2d. destruct (get_ffts env nt np). unfold rev2. rewrite H2. cbn [bind].
  unfold convolve_fft, ndim. cbn [shape]. rewrite H1. cbn [length Nat.eqb negb bind].
  rewrite newshape_wrap by (repeat constructor; lia). rewrite prodZ2. destruct (Z.ltb_spec gb (16 * (ny * nx))); [reflexivity|lia].
Qed.
