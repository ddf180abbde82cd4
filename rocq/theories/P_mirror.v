(** C91: transposing both images; C92: mirroring both images is exchanging them *)
From Coq Require Import ZArith Lia List Reals Lra Bool FunctionalExtensionality.
From Coquelicot Require Import Complex.
From Verif Require Import Base NDim DFT Kernel Num Py M_fast_ffts M_shift M_scale M_zoom M_upsample M_downsample M_convolve M_correlate Arg M_chi2 M_xcorr M_register
  Spec L_shift L_scale L_upsample L_convolve Sum2 Spec2 Spec3 Spec4 L_correlate L_chi2 L_chi2shift L_fshift L_xcorr L_register L_register2
  L_register3 P_chi2map P_chi2shift P_chi2errors P_chi2shift2 P_xcorr P_xcorr2 P_xcorr3 P_xcorr4 P_register P_register3 P_common L_tail L_same.
Import ListNotations.
Open Scope R_scope.

(** the transpose of an ny x nx image *)
Definition transposed (a : arr num) (ny nx : Z) : arr num := mk2 nx ny (fun y x => get a [x; y]).
Definition transposed_err (err : errarg) (ny nx : Z) : errarg := match err with ErrArr a => ErrArr (transposed a ny nx) | o => o end.

Lemma sum2_tr ny nx f : sum2 nx ny (fun i j => f j i) = sum2 ny nx f.
Proof. unfold sum2. apply sumR_swap. Qed.
Lemma prep_tr zm a ny nx y x : prep zm (transposed a ny nx) nx ny y x = prep zm a ny nx x y.
Proof.
  unfold prep. change (get (transposed a ny nx) [y; x]) with (get a [x; y]).
  assert (Ec : valid_count (transposed a ny nx) nx ny = valid_count a ny nx) by (apply (sum2_tr ny nx (fun i j => match get a [i; j] with Fin _ => 1 | NaN => 0 end))).
  assert (Es : pixel_sum nx ny (px (transposed a ny nx)) = pixel_sum ny nx (px a)) by (apply (sum2_tr ny nx (px a))).
  rewrite Ec, Es. reflexivity.
Qed.
Lemma prep_tr_fun zm a ny nx : prep zm (transposed a ny nx) nx ny = fun y x => prep zm a ny nx x y.
Proof. apply functional_extensionality. intros y. apply functional_extensionality. intros x. apply prep_tr. Qed.
Lemma used_tr zm err a ny nx y x : used_image zm (transposed_err err ny nx) (transposed a ny nx) nx ny y x = used_image zm err a ny nx x y.
Proof. unfold used_image. rewrite prep_tr. destruct err; reflexivity. Qed.
Lemma sigma_tr err ny nx y x : sigma_of (transposed_err err ny nx) y x = sigma_of err x y.
Proof. destruct err; reflexivity. Qed.
Lemma err_ok_tr err ny nx : err_ok err ny nx -> err_ok (transposed_err err ny nx) nx ny.
Proof. destruct err; simpl; auto. Qed.
Lemma ccf_tr ny nx f g s t : ccf nx ny (fun y x => f x y) (fun y x => g x y) t s = ccf ny nx f g s t.
Proof. unfold ccf. apply (sum2_tr ny nx (fun i j => f ((i - s) mod ny)%Z ((j - t) mod nx)%Z * g i j)). Qed.
Lemma size_tr e huge ny nx : size_ok e huge ny nx -> size_ok e huge nx ny.
Proof. unfold size_ok. rewrite (Z.mul_comm nx ny). auto. Qed.

(** *** C91 *)
Theorem C91_correlate2d :
  forall env gb (im1 im2 : arr num) nthreads use_np allow_huge ny nx,
  shape im1 = [ny; nx] -> shape im2 = [ny; nx] -> (0 < ny)%Z -> (0 < nx)%Z ->
  allow_huge = true \/ (16 * (ny * nx) <= gb)%Z ->
  exists c c', correlate2d env gb im1 im2 BWrap nthreads use_np allow_huge = Ok c /\ shape c = [ny; nx] /\
    correlate2d env gb (transposed im1 ny nx) (transposed im2 ny nx) BWrap nthreads use_np allow_huge = Ok c' /\ shape c' = [nx; ny] /\
    forall k l, (0 <= k < ny)%Z -> (0 <= l < nx)%Z -> g2 c' l k = g2 c k l.
Proof.
  intros env gb im1 im2 nt np huge ny nx H1 H2 Hy Hx Hh.
  destruct (correlate2d_wrap env gb im1 im2 nt np huge ny nx) as [c [A [B D]]]; auto.
  destruct (correlate2d_wrap env gb (transposed im1 ny nx) (transposed im2 ny nx) nt np huge nx ny) as [c' [A' [B' D']]]; auto.
  { rewrite (Z.mul_comm nx ny). auto. }
  exists c, c'. split; [exact A|]. split; [exact B|]. split; [exact A'|]. split; [exact B'|]. intros k l Hk Hl. rewrite D, D' by auto.
  apply (sum2_tr ny nx (fun i j => nan0 (g2 im2 i j) * nan0 (g2 im1 ((i - (ny - 1) / 2 + k) mod ny)%Z ((j - (nx - 1) / 2 + l) mod nx)%Z))).
Qed.
Print Assumptions C91_correlate2d.

Theorem C91_chi2n_map :
  forall e im1 im2 err nthreads zeromean use_np reduced allow_huge ny nx,
  shape im1 = [ny; nx] -> shape im2 = [ny; nx] -> (0 < ny)%Z -> (0 < nx)%Z -> err_ok err ny nx -> size_ok e allow_huge ny nx ->
  (reduced = true -> (ny * nx <> 2)%Z) ->
  exists c c', chi2n_map e im1 im2 err BWrap nthreads zeromean use_np false reduced allow_huge = Ok (Chi2Only c) /\ shape c = [ny; nx] /\
    chi2n_map e (transposed im1 ny nx) (transposed im2 ny nx) (transposed_err err ny nx) BWrap nthreads zeromean use_np false reduced allow_huge = Ok (Chi2Only c') /\
    shape c' = [nx; ny] /\ forall k l, (0 <= k < ny)%Z -> (0 <= l < nx)%Z -> g2 c' l k = g2 c k l.
Proof.
  intros e im1 im2 err nt zm np rd huge ny nx H1 H2 Hy Hx He Hh Hr.
  destruct (chi2n_map_ok e im1 im2 err nt zm np false rd huge ny nx) as [c [t1 [t2 [t3 [E [S [_ [_ V]]]]]]]]; auto.
  destruct (chi2n_map_ok e (transposed im1 ny nx) (transposed im2 ny nx) (transposed_err err ny nx) nt zm np false rd huge nx ny) as [c' [t1' [t2' [t3' [E' [S' [_ [_ V']]]]]]]]; auto using err_ok_tr, size_tr.
  { intros Q. specialize (Hr Q). lia. }
  exists c, c'. split; [exact E|]. split; [exact S|]. split; [exact E'|]. split; [exact S'|].
  intros k l Hk Hl. destruct (V k l Hk Hl) as [_ [_ W]]. destruct (V' l k Hl Hk) as [_ [_ W']]. rewrite W, W'. clear W W' V V'.
  assert (Q : chi2_of nx ny (used_image zm (transposed_err err ny nx) (transposed im1 ny nx) nx ny) (used_image zm (transposed_err err ny nx) (transposed im2 ny nx) nx ny) (sigma_of (transposed_err err ny nx)) ((nx - 1) / 2 - l) ((ny - 1) / 2 - k)
    = chi2_of ny nx (used_image zm err im1 ny nx) (used_image zm err im2 ny nx) (sigma_of err) ((ny - 1) / 2 - k) ((nx - 1) / 2 - l)).
  { unfold chi2_of. change (pixel_sum ny nx) with (sum2 ny nx). change (pixel_sum nx ny) with (sum2 nx ny).
    rewrite <- sum2_tr. apply sum2_ext. intros i j Hi Hj. rewrite !used_tr, sigma_tr. reflexivity. }
  rewrite Q, (Z.mul_comm nx ny). reflexivity.
Qed.
Print Assumptions C91_chi2n_map.

Lemma best_tr ny nx f g sy sx : best_roll ny nx f g sy sx -> best_roll nx ny (fun y x => f x y) (fun y x => g x y) sx sy.
Proof. intros H s t N. rewrite !(ccf_tr ny nx f g). apply H. destruct N; auto. Qed.
Lemma best_abs_tr ny nx f g sy sx : best_abs_roll ny nx f g sy sx -> best_abs_roll nx ny (fun y x => f x y) (fun y x => g x y) sx sy.
Proof. intros H s t N. rewrite !(ccf_tr ny nx f g). apply H. destruct N; auto. Qed.
Lemma errim_tr o ny nx : errim_ok o ny nx -> errim_ok (option_map (fun a => transposed a ny nx) o) nx ny.
Proof. destruct o; simpl; auto. Qed.

(** the two sub-pixel offsets change places *)
Theorem C91_cross_correlation_shifts :
  forall e agpy im1 im2 er1 er2 zeromean nthreads use_np allow_huge ny nx sy sx,
  shape im1 = [ny; nx] -> shape im2 = [ny; nx] -> size_ok e allow_huge ny nx -> errim_ok er1 ny nx -> errim_ok er2 ny nx ->
  interior_shift ny sy -> interior_shift nx sx ->
  let f := prep zeromean im1 ny nx in let g := prep zeromean im2 ny nx in
  let tr := fun a => transposed a ny nx in
  best_roll ny nx f g sy sx -> ccf ny nx f g sy sx <> 0 ->
  exists x y,
    cross_correlation_shifts e agpy im1 im2 er1 er2 None false false zeromean BWrap nthreads use_np allow_huge = Ok [x; y] /\
    cross_correlation_shifts e agpy (tr im1) (tr im2) (option_map tr er1) (option_map tr er2) None false false zeromean BWrap nthreads use_np allow_huge = Ok [y; x].
Proof.
  intros e agpy im1 im2 er1 er2 zm nt np huge ny nx sy sx H1 H2 Hh He1 He2 Iy Ix f g tr Hb Hc.
  rewrite (xcorr_interior e agpy im1 im2 er1 er2 false zm nt np huge ny nx sy sx) by auto.
  assert (B := best_tr ny nx f g sy sx Hb). unfold f, g in B. rewrite <- !prep_tr_fun in B.
  assert (Z : ccf nx ny (prep zm (tr im1) nx ny) (prep zm (tr im2) nx ny) sx sy <> 0) by (unfold tr; rewrite !prep_tr_fun, (ccf_tr ny nx f g); exact Hc).
  rewrite (xcorr_interior e agpy (tr im1) (tr im2) (option_map tr er1) (option_map tr er2) false zm nt np huge nx ny sx sy) by (auto using size_tr; unfold tr; auto using errim_tr).
  unfold tr. rewrite !prep_tr_fun. cbv zeta. fold f g.
  rewrite !(ccf_tr ny nx f g), (Z.mul_comm nx ny).
  set (N := IZR (ny * nx)). set (K := fun i j => ccf ny nx f g (sy + i) (sx + j) / N).
  change (ccf ny nx f g (sy + 0) (sx + -1) / N) with (K 0%Z (-1)%Z). change (ccf ny nx f g (sy + 0) (sx + 1) / N) with (K 0%Z 1%Z).
  change (ccf ny nx f g (sy + -1) (sx + 0) / N) with (K (-1)%Z 0%Z). change (ccf ny nx f g (sy + 1) (sx + 0) / N) with (K 1%Z 0%Z).
  change (ccf ny nx f g (sy + -1) (sx + 1) / N) with (K (-1)%Z 1%Z). change (ccf ny nx f g (sy + 1) (sx + -1) / N) with (K 1%Z (-1)%Z).
  change (ccf ny nx f g (sy + -1) (sx + -1) / N) with (K (-1)%Z (-1)%Z). change (ccf ny nx f g (sy + 1) (sx + 1) / N) with (K 1%Z 1%Z).
  change (ccf ny nx f g (sy + 0) (sx + 0) / N) with (K 0%Z 0%Z).
  do 2 eexists. split; [reflexivity|].
  set (fyy := K 0%Z 1%Z + K 0%Z (-1)%Z - 2 * K 0%Z 0%Z).
  replace (K 0%Z (-1)%Z + K 0%Z 1%Z - 2 * K 0%Z 0%Z) with fyy by (unfold fyy; ring).
  set (fxx := K (-1)%Z 0%Z + K 1%Z 0%Z - 2 * K 0%Z 0%Z).
  replace (K 1%Z 0%Z + K (-1)%Z 0%Z - 2 * K 0%Z 0%Z) with fxx by (unfold fxx; ring).
  set (fxy := 1 / 4 * (K (-1)%Z 1%Z + K 1%Z (-1)%Z - K (-1)%Z (-1)%Z - K 1%Z 1%Z)).
  replace (1 / 4 * (K 1%Z (-1)%Z + K (-1)%Z 1%Z - K (-1)%Z (-1)%Z - K 1%Z 1%Z)) with fxy by (unfold fxy; ring).
  replace (fxy ^ 2 - fyy * fxx) with (fxy ^ 2 - fxx * fyy) by ring. reflexivity.
Qed.
Print Assumptions C91_cross_correlation_shifts.

Theorem C91_register_images :
  forall has_fftw im1 im2 ret_err zeromean maxoff nthreads use_np ny nx sy sx,
  shape im1 = [ny; nx] -> shape im2 = [ny; nx] -> (0 < ny)%Z -> (0 < nx)%Z ->
  mo_ok maxoff -> within maxoff (centred ny sy) -> within maxoff (centred nx sx) ->
  best_abs_roll ny nx (prep zeromean im1 ny nx) (prep zeromean im2 ny nx) sy sx ->
  exists x y,
    register_images has_fftw im1 im2 1 false ret_err zeromean maxoff nthreads use_np = Ok (nums [x; y] ++ err_out ret_err 1) /\
    register_images has_fftw (transposed im1 ny nx) (transposed im2 ny nx) 1 false ret_err zeromean maxoff nthreads use_np = Ok (nums [y; x] ++ err_out ret_err 1).
Proof.
  intros hf im1 im2 re zm mo nt np ny nx sy sx H1 H2 Hy Hx HM Wy Wx HB.
  exists (IZR (centred nx sx)), (IZR (centred ny sy)). split; [apply C51_unique_peak_is_returned; auto|].
  apply C51_unique_peak_is_returned; auto. rewrite !prep_tr_fun. apply best_abs_tr. exact HB.
Qed.
Print Assumptions C91_register_images.

(** *** C92: mirroring (both axes reversed about pixel (0, 0), periodically) *)
Definition mirrored (a : arr num) (ny nx : Z) : arr num := mk2 ny nx (fun y x => get a [((- y) mod ny)%Z; ((- x) mod nx)%Z]).

Lemma sum2_mir ny nx f : (0 < ny)%Z -> (0 < nx)%Z -> sum2 ny nx (fun i j => f ((- i) mod ny)%Z ((- j) mod nx)%Z) = sum2 ny nx f.
Proof.
  intros Hy Hx. rewrite <- (sum2_shift ny nx f 1 1) by auto. rewrite <- sum2_rev. apply sum2_ext. intros i j Hi Hj.
  f_equal; match goal with |- ((- ?a) mod ?n = _)%Z => rewrite <- (Z_mod_plus_full (- a) 1 n); f_equal; lia end.
Qed.
Lemma prep_mir zm a ny nx y x : (0 < ny)%Z -> (0 < nx)%Z -> prep zm (mirrored a ny nx) ny nx y x = prep zm a ny nx ((- y) mod ny) ((- x) mod nx).
Proof.
  intros Hy Hx. unfold prep. change (get (mirrored a ny nx) [y; x]) with (get a [((- y) mod ny)%Z; ((- x) mod nx)%Z]).
  assert (Ec : valid_count (mirrored a ny nx) ny nx = valid_count a ny nx) by (apply (sum2_mir ny nx (fun i j => match get a [i; j] with Fin _ => 1 | NaN => 0 end)); auto).
  assert (Es : pixel_sum ny nx (px (mirrored a ny nx)) = pixel_sum ny nx (px a)) by (apply (sum2_mir ny nx (px a)); auto).
  rewrite Ec, Es. reflexivity.
Qed.
Lemma prep_mir_fun zm a ny nx : (0 < ny)%Z -> (0 < nx)%Z -> prep zm (mirrored a ny nx) ny nx = fun y x => prep zm a ny nx ((- y) mod ny) ((- x) mod nx).
Proof. intros. apply functional_extensionality. intros y. apply functional_extensionality. intros x. apply prep_mir; auto. Qed.
Lemma mod_opp_sub a s n : (0 < n)%Z -> ((- ((a - s) mod n)) mod n = ((- a) mod n - - s) mod n)%Z.
Proof. intros H. rewrite Zminus_mod_idemp_l, <- Z.sub_0_l, Zminus_mod_idemp_r. f_equal. lia. Qed.

Lemma ccf_mir ny nx f g s t : (0 < ny)%Z -> (0 < nx)%Z ->
  ccf ny nx (fun y x => f ((- y) mod ny)%Z ((- x) mod nx)%Z) (fun y x => g ((- y) mod ny)%Z ((- x) mod nx)%Z) s t = ccf ny nx g f s t.
Proof.
  intros Hy Hx. rewrite (ccf_swap ny nx f g s t) by auto. unfold ccf. change (pixel_sum ny nx) with (sum2 ny nx).
  rewrite <- (sum2_mir ny nx (fun i j => f ((i - - s) mod ny)%Z ((j - - t) mod nx)%Z * g i j)) by auto.
  apply sum2_ext. intros i j Hi Hj. rewrite !mod_opp_sub by auto. reflexivity.
Qed.

(** the correlation map of the mirrored pair is that of the exchanged pair *)
Theorem C92_correlate2d :
  forall env gb (im1 im2 : arr num) nthreads use_np allow_huge ny nx,
  shape im1 = [ny; nx] -> shape im2 = [ny; nx] -> (0 < ny)%Z -> (0 < nx)%Z ->
  allow_huge = true \/ (16 * (ny * nx) <= gb)%Z ->
  exists c c', correlate2d env gb im2 im1 BWrap nthreads use_np allow_huge = Ok c /\
    correlate2d env gb (mirrored im1 ny nx) (mirrored im2 ny nx) BWrap nthreads use_np allow_huge = Ok c' /\ shape c' = shape c /\
    forall k l, (0 <= k < ny)%Z -> (0 <= l < nx)%Z -> g2 c' k l = g2 c k l.
Proof.
  intros env gb im1 im2 nt np huge ny nx H1 H2 Hy Hx Hh.
  destruct (correlate2d_wrap env gb im2 im1 nt np huge ny nx) as [c [A [B D]]]; auto.
  destruct (correlate2d_wrap env gb (mirrored im1 ny nx) (mirrored im2 ny nx) nt np huge ny nx) as [c' [A' [B' D']]]; auto.
  exists c, c'. split; [exact A|]. split; [exact A'|]. split; [congruence|]. intros k l Hk Hl. rewrite D, D' by auto.
  assert (M := ccf_mir ny nx (fun y x => nan0 (g2 im1 y x)) (fun y x => nan0 (g2 im2 y x)) ((ny - 1) / 2 - k) ((nx - 1) / 2 - l) Hy Hx).
  unfold ccf in M. change (pixel_sum ny nx) with (sum2 ny nx) in M.
  etransitivity; [|etransitivity; [exact M|]]; apply sum2_ext; intros i j Hi Hj; rewrite Rmult_comm;
    rewrite !(Z.sub_sub_distr _ _ k), !(Z.sub_sub_distr _ _ l); reflexivity.
Qed.
Print Assumptions C92_correlate2d.

(** no error, or one number for all pixels *)
Definition flat_err (err : errarg) : Prop := match err with ErrArr _ => False | _ => True end.
Lemma used_flat zm err a ny nx : flat_err err -> used_image zm err a ny nx = prep zm a ny nx.
Proof. intros F. destruct err; [reflexivity|reflexivity|destruct F]. Qed.
Lemma sigma_flat err : flat_err err -> exists s, sigma_of err = fun _ _ => s.
Proof. intros F. destruct err as [|s|]; [exists 1|exists s|destruct F]; reflexivity. Qed.
Lemma chi2_mir ny nx f g s p q : (0 < ny)%Z -> (0 < nx)%Z ->
  chi2_of ny nx (fun y x => f ((- y) mod ny)%Z ((- x) mod nx)%Z) (fun y x => g ((- y) mod ny)%Z ((- x) mod nx)%Z) (fun _ _ => s) p q =
  chi2_of ny nx g f (fun _ _ => s) p q.
Proof.
  intros Hy Hx. unfold chi2_of. change (pixel_sum ny nx) with (sum2 ny nx).
  set (F := fun i j => ((g i j - f ((i - - p) mod ny)%Z ((j - - q) mod nx)%Z) / s) ^ 2).
  transitivity (sum2 ny nx F).
  - rewrite <- (sum2_mir ny nx F) by auto. apply sum2_ext. intros i j Hi Hj. unfold F. rewrite !mod_opp_sub by auto. reflexivity.
  - rewrite <- (sum2_moved ny nx F p q) by auto. apply sum2_ext. intros i j Hi Hj. unfold F. rewrite !Zminus_mod_idemp_l.
    replace (i - p - - p)%Z with i by lia. replace (j - q - - q)%Z with j by lia. rewrite (Z.mod_small i ny), (Z.mod_small j nx) by lia.
    unfold Rdiv. ring.
Qed.
Lemma map_mir e im1 im2 err nt zm np ra rd huge ny nx :
  shape im1 = [ny; nx] -> shape im2 = [ny; nx] -> (0 < ny)%Z -> (0 < nx)%Z -> err_ok err ny nx -> flat_err err -> size_ok e huge ny nx ->
  (rd = true -> (ny * nx <> 2)%Z) ->
  exists c t1 t2 t3 c' t1' t2' t3',
    chi2n_map e im2 im1 err BWrap nt zm np ra rd huge = Ok (if ra then Chi2All c t1 t2 t3 else Chi2Only c) /\
    chi2n_map e (mirrored im1 ny nx) (mirrored im2 ny nx) err BWrap nt zm np ra rd huge = Ok (if ra then Chi2All c' t1' t2' t3' else Chi2Only c') /\
    shape c = [ny; nx] /\ shape c' = [ny; nx] /\ (forall k l, (0 <= k < ny)%Z -> (0 <= l < nx)%Z -> g2 c' k l = g2 c k l).
Proof.
  intros H1 H2 Hy Hx He Hf Hh Hr.
  destruct (chi2n_map_ok e im2 im1 err nt zm np ra rd huge ny nx) as [c [t1 [t2 [t3 [E [S [_ [_ V]]]]]]]]; auto.
  destruct (chi2n_map_ok e (mirrored im1 ny nx) (mirrored im2 ny nx) err nt zm np ra rd huge ny nx) as [c' [t1' [t2' [t3' [E' [S' [_ [_ V']]]]]]]]; auto.
  exists c, t1, t2, t3, c', t1', t2', t3'. split; [exact E|]. split; [exact E'|]. split; [exact S|]. split; [exact S'|].
  intros k l Hk Hl. destruct (V k l Hk Hl) as [_ [_ W]]. destruct (V' k l Hk Hl) as [_ [_ W']]. rewrite W, W'. clear W W' V V'.
  rewrite !used_flat, !prep_mir_fun by auto. destruct (sigma_flat err Hf) as [s ->]. rewrite chi2_mir by auto. reflexivity.
Qed.

Theorem C92_chi2n_map :
  forall e im1 im2 err nthreads zeromean use_np reduced allow_huge ny nx,
  shape im1 = [ny; nx] -> shape im2 = [ny; nx] -> (0 < ny)%Z -> (0 < nx)%Z -> err_ok err ny nx -> flat_err err -> size_ok e allow_huge ny nx ->
  (reduced = true -> (ny * nx <> 2)%Z) ->
  exists c c', chi2n_map e im2 im1 err BWrap nthreads zeromean use_np false reduced allow_huge = Ok (Chi2Only c) /\
    chi2n_map e (mirrored im1 ny nx) (mirrored im2 ny nx) err BWrap nthreads zeromean use_np false reduced allow_huge = Ok (Chi2Only c') /\
    shape c' = shape c /\ forall k l, (0 <= k < ny)%Z -> (0 <= l < nx)%Z -> g2 c' k l = g2 c k l.
Proof.
  intros e im1 im2 err nt zm np rd huge ny nx H1 H2 Hy Hx He Hf Hh Hr.
  destruct (map_mir e im1 im2 err nt zm np false rd huge ny nx) as [c [t1 [t2 [t3 [c' [t1' [t2' [t3' [E [E' [S [S' V]]]]]]]]]]]]; auto.
  exists c, c'. split; [exact E|]. split; [exact E'|]. split; [congruence|exact V].
Qed.
Print Assumptions C92_chi2n_map.

Theorem C92_chi2_shift :
  forall e im1 im2 err us nthreads use_np zeromean nfitted verbose return_error max_auto_size min_nsamp allow_huge ny nx,
  shape im1 = [ny; nx] -> shape im2 = [ny; nx] -> (0 < ny)%Z -> (0 < nx)%Z -> err_ok err ny nx -> flat_err err -> size_ok e allow_huge ny nx ->
  chi2_shift e (mirrored im1 ny nx) (mirrored im2 ny nx) err us BWrap nthreads use_np zeromean nfitted verbose return_error false max_auto_size min_nsamp allow_huge =
  chi2_shift e im2 im1 err us BWrap nthreads use_np zeromean nfitted verbose return_error false max_auto_size min_nsamp allow_huge /\
  same_call 0
    (chi2_shift e (mirrored im1 ny nx) (mirrored im2 ny nx) err us BWrap nthreads use_np zeromean nfitted verbose return_error true max_auto_size min_nsamp allow_huge)
    (chi2_shift e im2 im1 err us BWrap nthreads use_np zeromean nfitted verbose return_error true max_auto_size min_nsamp allow_huge).
Proof.
  intros e im1 im2 err us nt np zm nf vb re mas mns huge ny nx H1 H2 Hy Hx He Hf Hh.
  destruct (map_mir e im1 im2 err nt zm np true false huge ny nx) as [c [t1 [t2 [t3 [c' [t1' [t2' [t3' [E [E' [S [S' V]]]]]]]]]]]]; auto; try discriminate.
  split; [apply (same_maps e (mirrored im1 ny nx) (mirrored im2 ny nx) err im2 im1 err zm zm us BWrap BWrap nt nt np np nf vb re false mas mns huge huge ny nx c' t1' t2' t3' c t1 t2 t3)|apply (same_maps e (mirrored im1 ny nx) (mirrored im2 ny nx) err im2 im1 err zm zm us BWrap BWrap nt nt np np nf vb re true mas mns huge huge ny nx c' t1' t2' t3' c t1 t2 t3)]; auto.
Qed.
Print Assumptions C92_chi2_shift.

(** without error estimates (the estimate is symmetric too, but only where it is defined) *)
Lemma xtail_noerr agpy ny nx m em s1 s2 s1' s2' mo gf : xtail agpy ny nx m em s1 s2 mo gf false = xtail agpy ny nx m em s1' s2' mo gf false.
Proof. reflexivity. Qed.
Theorem C92_cross_correlation_shifts :
  forall e agpy im1 im2 er1 er2 maxoff gaussfit zeromean nthreads use_np allow_huge ny nx,
  shape im1 = [ny; nx] -> shape im2 = [ny; nx] -> (0 < ny)%Z -> (0 < nx)%Z -> size_ok e allow_huge ny nx ->
  errim_ok er1 ny nx -> errim_ok er2 ny nx ->
  cross_correlation_shifts e agpy (mirrored im1 ny nx) (mirrored im2 ny nx) er1 er2 maxoff gaussfit false zeromean BWrap nthreads use_np allow_huge =
  cross_correlation_shifts e agpy im2 im1 er2 er1 maxoff gaussfit false zeromean BWrap nthreads use_np allow_huge.
Proof.
  intros e agpy im1 im2 er1 er2 mo gf zm nt np huge ny nx H1 H2 Hy Hx Hh E1 E2.
  rewrite (xcorr_eq e agpy im2 im1 er2 er1 mo gf false zm nt np huge ny nx) by auto.
  rewrite (xcorr_eq e agpy (mirrored im1 ny nx) (mirrored im2 ny nx) er1 er2 mo gf false zm nt np huge ny nx) by auto.
  rewrite !prep_mir_fun by auto. erewrite xtail_noerr. apply xtail_ext; auto. intros k l Hk Hl. rewrite ccf_mir by auto. reflexivity.
Qed.
Print Assumptions C92_cross_correlation_shifts.

(** register_images at every factor *)
Lemma dft_mir ny nx f k : (0 < ny)%Z -> (0 < nx)%Z -> inb [ny; nx] k ->
  dft [ny; nx] (fun y => RtoC (img2 (fun y x => f ((- y) mod ny)%Z ((- x) mod nx)%Z) y)) k = Cconj (dft [ny; nx] (fun y => RtoC (img2 f y)) k).
Proof.
  intros Hy Hx Hk. apply inb2 in Hk. destruct Hk as [p [q [-> [Hp Hq]]]].
  unfold dft. rewrite Cconj_sumNC. cbn [sumNC sumNG img2 phZ].
  set (h := fun i j : Z => Cmult (RtoC (f (i mod ny)%Z (j mod nx)%Z)) (cis (2 * PI * (IZR p * IZR i / IZR ny + (IZR q * IZR j / IZR nx + 0))))).
  assert (Py : forall i j, h (i + ny)%Z j = h i j).
  { intros i j. unfold h. rewrite <- (Z.mul_1_l ny) at 1. rewrite Z_mod_plus_full. f_equal. apply cis_congr with (k := p). rewrite plus_IZR. field. split; apply IZR_neq0; lia. }
  assert (Px : forall i j, h i (j + nx)%Z = h i j).
  { intros i j. unfold h. rewrite <- (Z.mul_1_l nx) at 1. rewrite Z_mod_plus_full. f_equal. apply cis_congr with (k := q). rewrite plus_IZR. field. split; apply IZR_neq0; lia. }
  transitivity (sumC ny (fun i => sumC nx (fun j => h (0 - i)%Z (0 - j)%Z))).
  - apply sumC_ext. intros i Hi. refine (sumC_ext nx _ _ _). intros j Hj. unfold h. rewrite (Z.sub_0_l i), (Z.sub_0_l j). f_equal. f_equal. rewrite !opp_IZR. field. split; apply IZR_neq0; lia.
  - rewrite (sumC_periodic_refl ny (fun i => sumC nx (fun j => h i (0 - j)%Z)) 0) by (first [lia|intros i; apply sumC_ext; intros j _; exact (Py i (0 - j)%Z)]).
    apply sumC_ext. intros i Hi. rewrite (sumC_periodic_refl nx (fun j => h i j) 0) by (first [lia|intros j; exact (Px i j)]).
    apply sumC_ext. intros j Hj. unfold h. rewrite !Z.mod_small by lia. rewrite Cconj_mult, Cconj_RtoC, cis_opp_conj, Cconj_inv. reflexivity.
Qed.
Lemma rcc_mir ny nx f g r c : (0 < ny)%Z -> (0 < nx)%Z ->
  rcc ny nx (fun y x => f ((- y) mod ny)%Z ((- x) mod nx)%Z) (fun y x => g ((- y) mod ny)%Z ((- x) mod nx)%Z) (- r) (- c) = rcc ny nx g f (- r) (- c).
Proof.
  intros Hy Hx. rewrite <- !rcc_fourier by auto. f_equal. apply sumNC_ext. intros k Hk. rewrite !dft_mir by auto. rewrite Cconj_inv. ring.
Qed.

Theorem C92_register_images :
  forall has_fftw im1 im2 u return_error zeromean maxoff nthreads use_np ny nx,
  shape im1 = [ny; nx] -> shape im2 = [ny; nx] -> (0 < ny)%Z -> (0 < nx)%Z -> u <> 0 ->
  register_images has_fftw (mirrored im1 ny nx) (mirrored im2 ny nx) u false return_error zeromean maxoff nthreads use_np =
  register_images has_fftw im2 im1 u false return_error zeromean maxoff nthreads use_np.
Proof.
  intros hf im1 im2 u re zm mo nt np ny nx H1 H2 Hy Hx Hu.
  assert (K := register_eq hf im2 im1 u false re zm mo nt np ny nx H2 H1 Hy Hx Hu ltac:(discriminate)).
  assert (K' := register_eq hf (mirrored im1 ny nx) (mirrored im2 ny nx) u false re zm mo nt np ny nx eq_refl eq_refl Hy Hx Hu ltac:(discriminate)).
  cbv zeta in K, K'.
  rewrite (regtail_scal ny nx (mag ny nx (prep zm im2 ny nx) (prep zm im1 ny nx)) (mag ny nx (prep zm (mirrored im1 ny nx) ny nx) (prep zm (mirrored im2 ny nx) ny nx)) 1) in K' by (auto; try lra; intros r c; rewrite Rmult_1_l; unfold mag; rewrite !prep_mir_fun, rcc_mir by auto; reflexivity).
  destruct (regtail ny nx (mag ny nx (prep zm im2 ny nx) (prep zm im1 ny nx)) u mo) as [r c].
  destruct K as [tl [K [T _]]]. destruct K' as [tl' [K' [T' _]]]. rewrite K, K'. rewrite T, T' by auto. reflexivity.
Qed.
Print Assumptions C92_register_images.

(** concrete cases *)
Example C91_nonvacuous : let im1 := dot 4 6 1 1 in let im2 := dot 4 6 1 2 in
  shape im1 = [4; 6]%Z /\ interior_shift 4 0 /\ interior_shift 6 1 /\ get (transposed im2 4 6) [2; 1]%Z = get im2 [1; 2]%Z /\
  best_roll 4 6 (prep false im1 4 6) (prep false im2 4 6) 0 1 /\ ccf 4 6 (prep false im1 4 6) (prep false im2 4 6) 0 1 <> 0.
Proof.
  cbv zeta. assert (R : forall s t, ccf 4 6 (prep false (dot 4 6 1 1) 4 6) (prep false (dot 4 6 1 2) 4 6) s t =
     (if (((1 + s) mod 4 =? 1) && ((1 + t) mod 6 =? 2))%Z then 1 else 0)).
  { intros. rewrite (ccf_delta 4 6 _ _ 1 1) by (try lia; intros; apply dot_prep). reflexivity. }
  split; [reflexivity|]. split; [split; reflexivity|]. split; [split; reflexivity|]. split; [reflexivity|]. split.
  - intros s t H. rewrite !R. change ((1 + 0) mod 4 =? 1)%Z with true. change ((1 + 1) mod 6 =? 2)%Z with true. cbn [andb].
    assert (G : ((1 + s) mod 4 <> 1 \/ (1 + t) mod 6 <> 2)%Z) by (Z.to_euclidean_division_equations; lia).
    destruct (Z.eqb_spec ((1 + s) mod 4) 1); destruct (Z.eqb_spec ((1 + t) mod 6) 2); cbn [andb]; try lra; exfalso; lia.
  - rewrite R. simpl. lra.
Qed.
Example C92_nonvacuous : let im := mk2 2 3 (fun y x => Fin (IZR (y * 3 + x))) in
  shape im = [2; 3]%Z /\ flat_err (ErrScalar 2) /\ err_ok (ErrScalar 2) 2 3 /\
  get (mirrored im 2 3) [1; 2]%Z = Fin 4 /\ get im [1; 2]%Z = Fin 5 /\ get (mirrored im 2 3) [0; 0]%Z = Fin 0.
Proof. cbv zeta. repeat split; simpl; try lra; reflexivity. Qed.
