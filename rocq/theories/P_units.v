(** C93: chi-squared registration in other units *)
From Coq Require Import ZArith Lia List Reals Lra Bool FunctionalExtensionality.
From Coquelicot Require Import Complex.
From Verif Require Import Base NDim DFT Kernel Num Py M_fast_ffts M_shift M_scale M_zoom M_upsample M_downsample M_convolve M_correlate Arg M_chi2 M_xcorr M_register
  Spec L_shift L_scale L_upsample L_convolve Sum2 Spec2 Spec3 Spec4 L_correlate L_chi2 L_chi2shift L_fshift L_xcorr L_register L_register2
  P_chi2map P_chi2shift P_chi2errors P_chi2shift2 P_xcorr P_xcorr3 P_register3 P_common L_tail L_same.
Import ListNotations.
Open Scope R_scope.

(** *** C93: images and errors in other units *)
Definition scale_err (k : R) (err : errarg) : errarg :=
  match err with ErrNone => ErrNone | ErrScalar s => ErrScalar (k * s) | ErrArr a => ErrArr (scale_img k a) end.
(** there is an error and it is nowhere zero or NaN *)
Definition errors_nonzero (err : errarg) (ny nx : Z) : Prop :=
  match err with
  | ErrNone => False
  | ErrScalar _ => True
  | ErrArr a => forall y x, (0 <= y < ny)%Z -> (0 <= x < nx)%Z -> px a y x <> 0
  end.
Lemma px_scale k a y x : px (scale_img k a) y x = k * px a y x.
Proof. unfold px, scale_img. cbn [amap get]. destruct (get a [y; x]); ring. Qed.
Lemma err_zero_scale k err y x : k <> 0 -> err_zero (scale_err k err) y x = err_zero err y x.
Proof.
  intros Hk. destruct err as [| |a]; try reflexivity. cbn [scale_err err_zero]. rewrite px_scale.
  destruct (Req_EM_T (px a y x) 0) as [Z|Z]; destruct (Req_EM_T (k * px a y x) 0) as [Z'|Z']; try reflexivity.
  - exfalso. apply Z'. rewrite Z. ring.
  - exfalso. apply Rmult_integral in Z'. destruct Z'; contradiction.
Qed.
Lemma err_ok_scale k err ny nx : k <> 0 -> err_ok err ny nx -> err_ok (scale_err k err) ny nx.
Proof. intros Hk. destruct err; simpl; auto. Qed.
Lemma map_scaled e im1 im2 err nt zm np ra rd huge ny nx k :
  shape im1 = [ny; nx] -> shape im2 = [ny; nx] -> (0 < ny)%Z -> (0 < nx)%Z -> err_ok err ny nx -> errors_nonzero err ny nx -> size_ok e huge ny nx ->
  (rd = true -> (ny * nx <> 2)%Z) -> k <> 0 ->
  exists c t1 t2 t3 c' t1' t2' t3',
    chi2n_map e im1 im2 err BWrap nt zm np ra rd huge = Ok (if ra then Chi2All c t1 t2 t3 else Chi2Only c) /\
    chi2n_map e (scale_img k im1) (scale_img k im2) (scale_err k err) BWrap nt zm np ra rd huge = Ok (if ra then Chi2All c' t1' t2' t3' else Chi2Only c') /\
    shape c = [ny; nx] /\ shape c' = [ny; nx] /\ (forall y x, (0 <= y < ny)%Z -> (0 <= x < nx)%Z -> g2 c' y x = g2 c y x).
Proof.
  intros H1 H2 Hy Hx He Hs Hh Hr Hk.
  destruct (chi2n_map_ok e im1 im2 err nt zm np ra rd huge ny nx) as [c [t1 [t2 [t3 [E [S [_ [_ V]]]]]]]]; auto.
  destruct (chi2n_map_ok e (scale_img k im1) (scale_img k im2) (scale_err k err) nt zm np ra rd huge ny nx) as [c' [t1' [t2' [t3' [E' [S' [_ [_ V']]]]]]]]; auto using err_ok_scale.
  exists c, t1, t2, t3, c', t1', t2', t3'. split; [exact E|]. split; [exact E'|]. split; [exact S|]. split; [exact S'|].
  intros y x HY HX. destruct (V y x HY HX) as [_ [_ W]]. destruct (V' y x HY HX) as [_ [_ W']]. rewrite W, W'. clear W W' V V'.
  match goal with |- (if rd then ?a / _ else _) = (if rd then ?b / _ else _) => assert (Q : a = b) end.
  { apply sum2_ext. intros i j Hi Hj.
    assert (UI : forall a y x, used_image zm (scale_err k err) (scale_img k a) ny nx y x = k * used_image zm err a ny nx y x).
    { intros a y0 x0. unfold used_image. rewrite err_zero_scale, prep_scale by auto. destruct (err_zero err y0 x0); ring. }
    assert (SG : sigma_of (scale_err k err) i j = k * sigma_of err i j /\ sigma_of err i j <> 0).
    { destruct err as [|s|a]; [destruct Hs|split; [reflexivity|exact He]|].
      assert (N := Hs i j Hi Hj). unfold sigma_of. cbn [scale_err]. fold (scale_err k (ErrArr a)).
      change (ErrArr (scale_img k a)) with (scale_err k (ErrArr a)). rewrite err_zero_scale by auto. unfold err_zero.
      destruct (Req_EM_T (px a i j) 0) as [Z|Z]; [contradiction|]. split; [apply px_scale|exact Z]. }
    destruct SG as [SG NZ]. rewrite !UI, SG. f_equal. field. auto. }
  rewrite Q. reflexivity.
Qed.

Theorem C93_chi2n_map :
  forall e im1 im2 err nthreads zeromean use_np reduced allow_huge ny nx k,
  shape im1 = [ny; nx] -> shape im2 = [ny; nx] -> (0 < ny)%Z -> (0 < nx)%Z -> err_ok err ny nx -> errors_nonzero err ny nx ->
  size_ok e allow_huge ny nx -> (reduced = true -> (ny * nx <> 2)%Z) -> k <> 0 ->
  exists c c', chi2n_map e im1 im2 err BWrap nthreads zeromean use_np false reduced allow_huge = Ok (Chi2Only c) /\
    chi2n_map e (scale_img k im1) (scale_img k im2) (scale_err k err) BWrap nthreads zeromean use_np false reduced allow_huge = Ok (Chi2Only c') /\
    shape c' = shape c /\ forall y x, (0 <= y < ny)%Z -> (0 <= x < nx)%Z -> g2 c' y x = g2 c y x.
Proof.
  intros e im1 im2 err nt zm np rd huge ny nx k H1 H2 Hy Hx He Hs Hh Hr Hk.
  destruct (map_scaled e im1 im2 err nt zm np false rd huge ny nx k) as [c [t1 [t2 [t3 [c' [t1' [t2' [t3' [E [E' [S [S' V]]]]]]]]]]]]; auto.
  exists c, c'. split; [exact E|]. split; [exact E'|]. split; [congruence|exact V].
Qed.
Print Assumptions C93_chi2n_map.

Theorem C93_chi2_shift :
  forall e im1 im2 err us nthreads use_np zeromean nfitted verbose return_error max_auto_size min_nsamp allow_huge ny nx k,
  shape im1 = [ny; nx] -> shape im2 = [ny; nx] -> (0 < ny)%Z -> (0 < nx)%Z -> err_ok err ny nx -> errors_nonzero err ny nx ->
  size_ok e allow_huge ny nx -> k <> 0 ->
  chi2_shift e (scale_img k im1) (scale_img k im2) (scale_err k err) us BWrap nthreads use_np zeromean nfitted verbose return_error false max_auto_size min_nsamp allow_huge =
  chi2_shift e im1 im2 err us BWrap nthreads use_np zeromean nfitted verbose return_error false max_auto_size min_nsamp allow_huge /\
  same_call 0
    (chi2_shift e (scale_img k im1) (scale_img k im2) (scale_err k err) us BWrap nthreads use_np zeromean nfitted verbose return_error true max_auto_size min_nsamp allow_huge)
    (chi2_shift e im1 im2 err us BWrap nthreads use_np zeromean nfitted verbose return_error true max_auto_size min_nsamp allow_huge).
Proof.
  intros e im1 im2 err us nt np zm nf vb re mas mns huge ny nx k H1 H2 Hy Hx He Hs Hh Hk.
  destruct (map_scaled e im1 im2 err nt zm np true false huge ny nx k) as [c [t1 [t2 [t3 [c' [t1' [t2' [t3' [E [E' [S [S' V]]]]]]]]]]]]; auto; try discriminate.
  split; [apply (same_maps e (scale_img k im1) (scale_img k im2) (scale_err k err) im1 im2 err zm zm us BWrap BWrap nt nt np np nf vb re false mas mns huge huge ny nx c' t1' t2' t3' c t1 t2 t3)|apply (same_maps e (scale_img k im1) (scale_img k im2) (scale_err k err) im1 im2 err zm zm us BWrap BWrap nt nt np np nf vb re true mas mns huge huge ny nx c' t1' t2' t3' c t1 t2 t3)]; auto.
Qed.
Print Assumptions C93_chi2_shift.

(** a pixel without error counts with error 1 in whatever units: the best roll of this pair is 1 pixel, in units four times smaller it is 0 *)
Definition row3 (a b c : num) : arr num := mk2 1 3 (fun _ x => if (x =? 0)%Z then a else if (x =? 1)%Z then b else c).
Theorem C93_unit_dependence_refuted :
  let im1 := row3 (Fin 7) (Fin (1/2)) (Fin (1/2)) in let im2 := row3 NaN (Fin 0) (Fin (1/2)) in let err := row3 NaN (Fin (1/2)) (Fin (1/2)) in
  forall e nthreads use_np, exists c c',
    chi2n_map e im1 im2 (ErrArr err) BWrap nthreads false use_np false false true = Ok (Chi2Only c) /\
    chi2n_map e (scale_img 4 im1) (scale_img 4 im2) (scale_err 4 (ErrArr err)) BWrap nthreads false use_np false false true = Ok (Chi2Only c') /\
    (* entry 1 - s belongs to a roll by s pixels *)
    is_argmin2 1 3 (g2 c) (0, 0)%Z /\ is_argmin2 1 3 (g2 c') (0, 1)%Z.
Proof.
  cbv zeta. intros e nt np.
  set (im1 := row3 (Fin 7) (Fin (1/2)) (Fin (1/2))). set (im2 := row3 NaN (Fin 0) (Fin (1/2))). set (er := row3 NaN (Fin (1/2)) (Fin (1/2))).
  destruct (chi2n_map_ok e im1 im2 (ErrArr er) nt false np false false true 1 3) as [c [t1 [t2 [t3 [E [S [_ [_ V]]]]]]]]; try reflexivity; try lia; try discriminate; [left; reflexivity|].
  destruct (chi2n_map_ok e (scale_img 4 im1) (scale_img 4 im2) (scale_err 4 (ErrArr er)) nt false np false false true 1 3) as [c' [t1' [t2' [t3' [E' [S' [_ [_ V']]]]]]]]; try reflexivity; try lia; try discriminate; [left; reflexivity|].
  exists c, c'. split; [exact E|]. split; [exact E'|].
  assert (Z0 : forall k, err_zero (scale_err k (ErrArr er)) 0 0 = true).
  { intros k. unfold err_zero, scale_err. rewrite px_scale. change (px er 0 0) with 0. destruct (Req_EM_T (k * 0) 0) as [|N]; [reflexivity|exfalso; apply N; ring]. }
  assert (Zn : forall k l, k <> 0 -> (l = 1 \/ l = 2)%Z -> err_zero (scale_err k (ErrArr er)) 0 l = false /\ sigma_of (scale_err k (ErrArr er)) 0 l = k * (1 / 2)).
  { intros k l Hk Hl. assert (EZ : err_zero (scale_err k (ErrArr er)) 0 l = false).
    { rewrite err_zero_scale by auto. unfold err_zero. replace (px er 0 l) with (1/2) by (destruct Hl; subst; reflexivity). destruct (Req_EM_T (1/2) 0); [lra|reflexivity]. }
    split; [exact EZ|]. unfold sigma_of. cbn [scale_err]. change (ErrArr (scale_img k er)) with (scale_err k (ErrArr er)). rewrite EZ.
    rewrite px_scale. destruct Hl; subst; reflexivity. }
  assert (VAL : forall k c0 (j1 j2 : arr num), k <> 0 -> (forall y x, prep false j1 1 3 y x = k * prep false im1 1 3 y x) -> (forall y x, prep false j2 1 3 y x = k * prep false im2 1 3 y x) ->
     (forall l, (0 <= l < 3)%Z -> g2 c0 0 l = chi2_of 1 3 (used_image false (scale_err k (ErrArr er)) j1 1 3) (used_image false (scale_err k (ErrArr er)) j2 1 3) (sigma_of (scale_err k (ErrArr er))) ((1 - 1) / 2 - 0) ((3 - 1) / 2 - l)) ->
     g2 c0 0 0 = k ^ 2 / 4 /\ g2 c0 0 1 = 1 /\ g2 c0 0 2 = 2 + k ^ 2 / 4).
  { intros k c0 j1 j2 Hk P1 P2 W. destruct (Zn k 1%Z Hk ltac:(auto)) as [A1 B1]. destruct (Zn k 2%Z Hk ltac:(auto)) as [A2 B2]. assert (A0 := Z0 k).
    assert (B0 : sigma_of (scale_err k (ErrArr er)) 0 0 = 1) by (unfold sigma_of; cbn [scale_err]; change (ErrArr (scale_img k er)) with (scale_err k (ErrArr er)); rewrite A0; reflexivity).
    assert (U1 : forall l, used_image false (scale_err k (ErrArr er)) j1 1 3 0 l = if err_zero (scale_err k (ErrArr er)) 0 l then 0 else k * prep false im1 1 3 0 l) by (intros; unfold used_image; rewrite P1; reflexivity).
    assert (U2 : forall l, used_image false (scale_err k (ErrArr er)) j2 1 3 0 l = if err_zero (scale_err k (ErrArr er)) 0 l then 0 else k * prep false im2 1 3 0 l) by (intros; unfold used_image; rewrite P2; reflexivity).
    assert (X1 : prep false im1 1 3 0 1 = 1/2) by reflexivity. assert (X2 : prep false im1 1 3 0 2 = 1/2) by reflexivity.
    assert (Y1 : prep false im2 1 3 0 1 = 0) by reflexivity. assert (Y2 : prep false im2 1 3 0 2 = 1/2) by reflexivity.
    assert (EX : forall h, pixel_sum 1 3 h = h 0%Z 0%Z + h 0%Z 1%Z + h 0%Z 2%Z).
    { intros h. unfold pixel_sum. change 1%Z with (0 + 1)%Z at 1. rewrite sumR_S by lia. rewrite sumR_0 by lia.
      change 3%Z with (0 + 1 + 1 + 1)%Z. rewrite !sumR_S by lia. rewrite sumR_0 by lia. simpl. ring. }
    rewrite !W by lia. unfold chi2_of. rewrite !EX.
    repeat match goal with |- context [(?a mod ?b)%Z] => let v := eval vm_compute in (a mod b)%Z in change (a mod b)%Z with v end.
    rewrite !U1, !U2, !A0, !A1, !A2, !B0, !B1, !B2, !X1, !X2, !Y1, !Y2. repeat split; field; auto. }
  assert (K1 := VAL 1 c im1 im2 ltac:(lra) ltac:(intros; ring) ltac:(intros; ring)).
  assert (K4 := VAL 4 c' (scale_img 4 im1) (scale_img 4 im2) ltac:(lra) ltac:(intros; apply prep_scale) ltac:(intros; apply prep_scale)).
  destruct K1 as [a [b d]].
  { intros l Hl. destruct (V 0%Z l ltac:(lia) Hl) as [_ [_ ->]]. replace (scale_err 1 (ErrArr er)) with (ErrArr er); [reflexivity|].
    cbn [scale_err]. f_equal. unfold scale_img, amap, er, row3, mk2. cbn [shape get]. f_equal. apply functional_extensionality. intros ix.
    match goal with |- _ = match ?w with _ => _ end => destruct w; [rewrite Rmult_1_l|]; reflexivity end. }
  destruct K4 as [a' [b' d']].
  { intros l Hl. destruct (V' 0%Z l ltac:(lia) Hl) as [_ [_ ->]]. reflexivity. }
  assert (T : forall j, (0 <= j < 3)%Z -> j = 0%Z \/ j = 1%Z \/ j = 2%Z) by (intros; lia).
  split; unfold is_argmin2; cbn [fst snd]; (split; [lia|]); (split; [lia|]); split; intros i j Hi Hj.
  - replace i with 0%Z by lia. destruct (T j Hj) as [-> | [-> | ->]]; rewrite ?a, ?b, ?d; lra.
  - intros L. lia.
  - replace i with 0%Z by lia. destruct (T j Hj) as [-> | [-> | ->]]; rewrite ?a', ?b', ?d'; lra.
  - intros L. replace i with 0%Z by lia. replace j with 0%Z by lia. rewrite a', b'. lra.
Qed.
Print Assumptions C93_unit_dependence_refuted.

Example C93_nonvacuous : let err := ErrArr (mk2 2 2 (fun y x => Fin (IZR (1 + y + x)))) in
  err_ok err 2 2 /\ errors_nonzero err 2 2 /\ scale_err 3 (ErrScalar 2) = ErrScalar (3 * 2) /\ err_ok (ErrScalar 2) 2 2.
Proof.
  cbv zeta. split; [reflexivity|]. split; [|split; [reflexivity|simpl; lra]].
  intros y x HY HX. change (px (mk2 2 2 (fun y x => Fin (IZR (1 + y + x)))) y x) with (IZR (1 + y + x)). apply not_0_IZR. lia.
Qed.
