(** C91: transposing both images exchanges the two offsets of chi2_shift and of register_images at every upsampling factor *)
From Coq Require Import ZArith Lia List Reals Lra Bool FunctionalExtensionality.
From Coquelicot Require Import Complex.
From Verif Require Import Base NDim DFT Kernel Num Py M_fast_ffts M_shift M_scale M_zoom M_upsample M_downsample M_convolve M_correlate Arg M_chi2 M_xcorr M_register
  Spec L_shift L_scale L_zoom L_upsample L_convolve Sum2 Spec2 Spec3 Spec4 L_correlate L_chi2 L_chi2shift L_fshift L_xcorr L_register L_register2
  L_register3 P_chi2map P_chi2shift P_chi2errors P_chi2shift2 P_xcorr2 P_register P_register2 P_register3 P_mirror P_finer.
Import ListNotations.
Open Scope R_scope.

(** (y, x) is the only place of the array where the smallest value is found *)
Definition strict_min (ny nx : Z) (m : Z -> Z -> R) (y x : Z) : Prop :=
  (0 <= y < ny)%Z /\ (0 <= x < nx)%Z /\
  forall k l, (0 <= k < ny)%Z -> (0 <= l < nx)%Z -> (k <> y \/ l <> x)%Z -> m y x < m k l.

Lemma strict_argmin ny nx m y x : strict_min ny nx m y x -> argmin2 ny nx m = (y, x).
Proof.
  intros [Hy [Hx H]]. assert (S := argmin2_spec ny nx m ltac:(lia) ltac:(lia)). destruct (argmin2 ny nx m) as [k l].
  destruct S as [Sk [Sl [S _]]]. cbn [fst snd] in *.
  destruct (Z.eq_dec k y) as [->|N]; [destruct (Z.eq_dec l x) as [->|N]; [reflexivity|]|]; exfalso;
    specialize (S y x Hy Hx); (assert (Q := H y l Hy Sl ltac:(auto)) || assert (Q := H k l Sk Sl ltac:(auto))); lra.
Qed.
Lemma strict_tr ny nx m m' y x : (forall k l, (0 <= k < ny)%Z -> (0 <= l < nx)%Z -> m' l k = m k l) -> strict_min ny nx m y x -> strict_min nx ny m' x y.
Proof.
  intros V [Hy [Hx H]]. split; [auto|]. split; [auto|]. intros k l Hk Hl N. rewrite !V by auto. apply H; auto. tauto.
Qed.

(** *** transposing the interpolation *)
Lemma interpR_tr ny nx (a a' : list Z -> R) p q : (forall k l, (0 <= k < ny)%Z -> (0 <= l < nx)%Z -> a' [l; k] = a [k; l]) ->
  trig_interpR [nx; ny] a' [q; p] = trig_interpR [ny; nx] a [p; q].
Proof.
  intros V. unfold trig_interpR. change (sumR nx (fun l => sumR ny (fun k => a' [l; k] * Re (dirichletN [nx; ny] [q; p] [l; k]))) = sumR ny (fun k => sumR nx (fun l => a [k; l] * Re (dirichletN [ny; nx] [p; q] [k; l])))).
  rewrite sumR_swap. apply sumR_ext. intros k Hk. apply sumR_ext. intros l Hl. rewrite V by auto. f_equal. f_equal. cbn [dirichletN]. ring.
Qed.
Lemma interpC_tr ny nx (a a' : list Z -> C) p q : (forall k l, (0 <= k < ny)%Z -> (0 <= l < nx)%Z -> a' [l; k] = a [k; l]) ->
  trig_interp [nx; ny] a' [q; p] = trig_interp [ny; nx] a [p; q].
Proof.
  intros V. unfold trig_interp. change (sumC nx (fun l => sumC ny (fun k => Cmult (a' [l; k]) (dirichletN [nx; ny] [q; p] [l; k]))) = sumC ny (fun k => sumC nx (fun l => Cmult (a [k; l]) (dirichletN [ny; nx] [p; q] [k; l])))).
  rewrite sumC_swap. apply sumC_ext. intros k Hk. apply sumC_ext. intros l Hl. rewrite V by auto. f_equal. cbn [dirichletN]. ring.
Qed.
Lemma rcc_tr ny nx f g ty tx : rcc nx ny (fun y x => f x y) (fun y x => g x y) tx ty = rcc ny nx f g ty tx.
Proof.
  unfold rcc. rewrite sumC_swap. apply sumC_ext. intros i Hi. apply sumC_ext. intros j Hj. f_equal. unfold cshift. apply interpC_tr. reflexivity.
Qed.

(** *** the window of the final search *)
Lemma region_size_tr P Q s s' : (forall y x, Q x y <-> P y x) -> is_region_size P s -> is_region_size Q s' -> s = s'.
Proof.
  intros V [[A ->]|[A1 [A2 [y [x [y' [x' [A3 [A4 A5]]]]]]]]] [[B ->]|[B1 [B2 [v [w [v' [w' [B3 [B4 B5]]]]]]]]].
  - reflexivity.
  - apply V in B3, B4. destruct (A w v w' v' B3 B4). lia.
  - apply V in A3, A4. destruct (B x y x' y' A3 A4). lia.
  - assert (C3 := proj1 (V w v) B3). assert (C4 := proj1 (V w' v') B4). assert (D3 := proj2 (V y x) A3). assert (D4 := proj2 (V y' x') A4).
    destruct (A2 w v w' v' C3 C4). destruct (B2 x y x' y' D3 D4). lia.
Qed.
Lemma min2_tr ny nx m m' : (0 < ny)%Z -> (0 < nx)%Z -> (forall k l, (0 <= k < ny)%Z -> (0 <= l < nx)%Z -> m' l k = m k l) -> min2 nx ny m' = min2 ny nx m.
Proof.
  intros Hy Hx V. unfold min2. destruct (argmin2_spec ny nx m Hy Hx) as [A1 [A2 [A3 _]]]. destruct (argmin2_spec nx ny m' Hx Hy) as [B1 [B2 [B3 _]]].
  destruct (argmin2 ny nx m) as [a b]. destruct (argmin2 nx ny m') as [c d]. cbn [fst snd] in *.
  specialize (A3 d c B2 B1). specialize (B3 b a A2 A1). rewrite V in B3 by auto. rewrite V in B3 |- * by auto. lra.
Qed.
Lemma auto_size_tr e ny nx m m' mns nf : (0 < ny)%Z -> (0 < nx)%Z -> (forall k l, (0 <= k < ny)%Z -> (0 <= l < nx)%Z -> m' l k = m k l) ->
  auto_size e nx ny m' mns nf = auto_size e ny nx m mns nf.
Proof.
  intros Hy Hx V. symmetry. eapply region_size_tr; [|apply auto_size_spec|apply auto_size_spec].
  intros y x. cbv beta. rewrite (min2_tr ny nx m m' Hy Hx V). split; intros [A [B C]]; (split; [auto|split; [auto|]]); rewrite V in * by auto; exact C.
Qed.

(** the explicit factor asks for the same kind of window along both axes (always so for square images and for 'auto') *)
Definition same_side (us : usarg) (ny nx : Z) : Prop :=
  match us with UAuto => True | UInt k => (ny <= k <-> nx <= k)%Z | UFloat r => r < IZR ny /\ r < IZR nx end.

Lemma window_tr e us ny nx m m' mas mns nf u s1 s2 : (0 < ny)%Z -> (0 < nx)%Z -> same_side us ny nx -> grid_given us ny nx mas ->
  (forall k l, (0 <= k < ny)%Z -> (0 <= l < nx)%Z -> m' l k = m k l) ->
  window e us ny nx m mas mns nf = Ok (u, [s1; s2]) -> window e us nx ny m' mas mns nf = Ok (u, [s2; s1]).
Proof.
  intros Hy Hx Hs Hg V. destruct us as [|k|r]; unfold window.
  - rewrite (auto_size_tr e ny nx m m') by auto. destruct (auto_factor _ _); cbn [bind]; [|discriminate]. intros E. injection E as -> <- <-. reflexivity.
  - destruct Hg as [u0 [a [b [-> [Hk _]]]]]. assert (0 < IZR k) by (apply IZR_lt; auto). cbn [same_side] in Hs. unfold explicit_window. rewrite !pydiv_ok by lra. cbn [bind].
    assert (C : forall n, IZR n / IZR k <= 1 <-> (n <= k)%Z).
    { intros n. split; intros Q.
      - apply le_IZR. apply (Rmult_le_compat_r (IZR k)) in Q; [|lra]. replace (IZR n / IZR k * IZR k) with (IZR n) in Q by (field; lra). lra.
      - apply IZR_le in Q. apply (Rmult_le_reg_r (IZR k)); [lra|]. replace (IZR n / IZR k * IZR k) with (IZR n) by (field; lra). lra. }
    destruct (Rle_dec (IZR ny / IZR k) 1) as [A|A], (Rle_dec (IZR nx / IZR k) 1) as [B|B]; rewrite C in A, B; try (exfalso; tauto);
      intros E; injection E as <- <- <-; reflexivity.
  - destruct Hg as [u0 [a [b [-> [Hr _]]]]]. cbn [same_side] in Hs. destruct Hs as [S1 S2]. unfold explicit_window. rewrite !pydiv_ok by lra. cbn [bind].
    assert (C : forall n, r < IZR n -> ~ IZR n / r <= 1).
    { intros n Q D. apply (Rmult_le_compat_r r) in D; [|lra]. replace (IZR n / r * r) with (IZR n) in D by (field; lra). lra. }
    destruct (Rle_dec (IZR ny / r) 1) as [A|A]; [exfalso; apply (C ny); auto|]. destruct (Rle_dec (IZR nx / r) 1) as [B|B]; [exfalso; apply (C nx); auto|].
    intros E; injection E as <- <- <-; reflexivity.
Qed.

Lemma extent_unique ny nx m t a b c d a' b' c' d' : extent ny nx m t a b c d -> extent ny nx m t a' b' c' d' -> a = a' /\ b = b' /\ c = c' /\ d = d'.
Proof.
  intros [[x1 A1] [[x2 A2] [[y1 A3] [[y2 A4] A5]]]] [[x1' B1] [[x2' B2] [[y1' B3] [[y2' B4] B5]]]].
  assert (C1 := B5 _ _ A1). assert (C2 := B5 _ _ A2). assert (C3 := B5 _ _ A3). assert (C4 := B5 _ _ A4).
  assert (D1 := A5 _ _ B1). assert (D2 := A5 _ _ B2). assert (D3 := A5 _ _ B3). assert (D4 := A5 _ _ B4). lia.
Qed.
Lemma extent_tr ny nx m m' t a b c d : (0 < ny)%Z -> (0 < nx)%Z -> (forall k l, (0 <= k < ny)%Z -> (0 <= l < nx)%Z -> m' l k = m k l) ->
  extent ny nx m t a b c d -> extent nx ny m' t c d a b.
Proof.
  intros Hy Hx V [[x1 A1] [[x2 A2] [[y1 A3] [[y2 A4] A5]]]].
  assert (W : forall y x, inwin nx ny m' t x y <-> inwin ny nx m t y x).
  { intros y x. unfold inwin. rewrite (min2_tr ny nx m m' Hy Hx V). split; intros [A [B C]]; (split; [auto|split; [auto|]]); rewrite V in * by auto; exact C. }
  split; [exists y1; apply W; exact A3|]. split; [exists y2; apply W; exact A4|]. split; [exists x1; apply W; exact A1|]. split; [exists x2; apply W; exact A2|].
  intros y x Q. apply W in Q. apply A5 in Q. tauto.
Qed.

(** *** chi2_shift *)
Theorem C91_chi2_shift :
  forall e im1 im2 err us nthreads use_np zeromean nfitted (return_error : bool) max_auto_size max_nsig allow_huge ny nx t map0 t1 t2 t3 ym xm u s1 s2 i j,
  shape im1 = [ny; nx] -> shape im2 = [ny; nx] -> (0 < ny)%Z -> (0 < nx)%Z -> err_ok err ny nx -> size_ok e allow_huge ny nx -> one_sigma e t ->
  same_side us ny nx -> grid_given us ny nx max_auto_size ->
  (* one best whole-pixel shift, and one best node of the fine grid around it *)
  chi2n_map e im1 im2 err BWrap nthreads zeromean use_np true false allow_huge = Ok (Chi2All map0 t1 t2 t3) ->
  strict_min ny nx (g2 map0) ym xm ->
  final_grid e us ny nx map0 ym xm max_auto_size max_nsig nfitted u s1 s2 ->
  strict_min s1 s2 (fun a b => chi2_at ny nx map0 (grid_shift ny ym s1 u a) (grid_shift nx xm s2 u b)) i j ->
  exists x y ex ey,
    chi2_shift e im1 im2 err us BWrap nthreads use_np zeromean nfitted false return_error false max_auto_size max_nsig allow_huge =
      Ok ([RNum x; RNum y] ++ (if return_error then [RNum ex; RNum ey] else [])) /\
    chi2_shift e (transposed im1 ny nx) (transposed im2 ny nx) (transposed_err err ny nx) us BWrap nthreads use_np zeromean nfitted false return_error false max_auto_size max_nsig allow_huge =
      Ok ([RNum y; RNum x] ++ (if return_error then [RNum ey; RNum ex] else [])) /\
    x = grid_shift nx xm s2 u j /\ y = grid_shift ny ym s1 u i.
Proof.
  intros e im1 im2 err us nt np zm nf re mas mns huge ny nx t c t1 t2 t3 ym xm u s1 s2 i j H1 H2 Hy Hx He Hh Ht Hs Hg E Fm FG Fn.
  destruct (chi2n_map_ok e im1 im2 err nt zm np true false huge ny nx H1 H2 Hy Hx He Hh ltac:(discriminate)) as [c0 [a1 [a2 [a3 [E0 [Sc [_ [_ V]]]]]]]].
  cbv iota in E0. rewrite E in E0. injection E0 as <- <- <- <-.
  destruct (chi2n_map_ok e (transposed im1 ny nx) (transposed im2 ny nx) (transposed_err err ny nx) nt zm np true false huge nx ny eq_refl eq_refl Hx Hy
     (err_ok_tr _ _ _ He) (size_tr _ _ _ _ Hh) ltac:(discriminate)) as [c' [t1' [t2' [t3' [E' [Sc' [_ [_ V']]]]]]]].
  assert (W : forall k l, (0 <= k < ny)%Z -> (0 <= l < nx)%Z -> g2 c' l k = g2 c k l).
  { intros k l Hk Hl. destruct (V k l Hk Hl) as [_ [_ ->]]. destruct (V' l k Hl Hk) as [_ [_ ->]].
    unfold chi2_of. change (pixel_sum ny nx) with (sum2 ny nx). change (pixel_sum nx ny) with (sum2 nx ny).
    rewrite <- sum2_tr. apply sum2_ext. intros p q Hp Hq. rewrite !used_tr, sigma_tr. reflexivity. }
  assert (A := strict_argmin _ _ _ _ _ Fm). assert (A' := strict_argmin _ _ _ _ _ (strict_tr ny nx (g2 c) (g2 c') ym xm W Fm)).
  assert (AS := argmin2_spec ny nx (g2 c) Hy Hx). rewrite A in AS.
  destruct (final_window e us ny nx c ym xm mas mns nf Hy Hx Hg AS) as [u0 [r1 [r2 [WI [FG0 [U0 [P1 P2]]]]]]].
  assert (EQ : u0 = u /\ r1 = s1 /\ r2 = s2).
  { clear - FG FG0 Hy Hx. destruct us as [|k|r]; cbn [final_grid] in FG, FG0.
    - destruct FG as [-> [-> [z [Z1 [-> Z3]]]]]. destruct FG0 as [-> [-> [z0 [Y1 [-> Y3]]]]]. split; [|auto]. f_equal. f_equal. f_equal.
      assert (z = z0); [|congruence]. clear - Z3 Y3. destruct Z3 as [[A ->]|[A1 [A2 [y [x [y' [x' [A3 [A4 A5]]]]]]]]], Y3 as [[B ->]|[B1 [B2 [v [w [v' [w' [B3 [B4 B5]]]]]]]]].
      + reflexivity.
      + destruct (A v w v' w' B3 B4). lia.
      + destruct (B y x y' x' A3 A4). lia.
      + destruct (A2 v w v' w' B3 B4). destruct (B2 y x y' x' A3 A4). lia.
    - destruct FG as [-> [_ Q]]. destruct FG0 as [-> [_ Q0]]. destruct (k <? ny)%Z; intuition congruence.
    - destruct FG as [-> [_ Q]]. destruct FG0 as [-> [_ Q0]]. intuition congruence. }
  destruct EQ as [-> [-> ->]]. clear FG0.
  assert (WI' := window_tr e us ny nx (g2 c) (g2 c') mas mns nf u s1 s2 Hy Hx Hs Hg W WI).
  apply one_sigma_thr in Ht. destruct Ht as [Ht Ht0].
  assert (K := chi2_shift_ok e im1 im2 err us BWrap nt np zm nf re false mas mns huge ny nx c t1 t2 t3 u s1 s2 t H1 Hy Hx E Sc WI U0 P1 P2 Ht Ht0).
  assert (K' := chi2_shift_ok e (transposed im1 ny nx) (transposed im2 ny nx) (transposed_err err ny nx) us BWrap nt np zm nf re false mas mns huge nx ny c' t1' t2' t3' u s2 s1 t eq_refl Hx Hy E' Sc' WI' U0 P2 P1 Ht Ht0).
  rewrite A in K. rewrite A' in K'. cbv zeta in K, K'.
  set (M := fun i j => trig_interpR [ny; nx] (get c) [grid_at (zcen ny ym) u s1 i; grid_at (zcen nx xm) u s2 j]) in *.
  set (M' := fun i j => trig_interpR [nx; ny] (get c') [grid_at (zcen nx xm) u s2 i; grid_at (zcen ny ym) u s1 j]) in *.
  assert (WM : forall k l, M' l k = M k l) by (intros k l; unfold M, M'; apply interpR_tr; exact W).
  assert (EM : forall a b, chi2_at ny nx c (grid_shift ny ym s1 u a) (grid_shift nx xm s2 u b) = M a b).
  { intros a b. unfold chi2_at, M. rewrite <- !node_grid. unfold node. rewrite !cen_int. f_equal. f_equal; [|f_equal]; ring. }
  assert (SM : strict_min s1 s2 M i j).
  { destruct Fn as [I1 [I2 I3]]. split; [auto|]. split; [auto|]. intros k l Hk Hl N. rewrite <- !EM. apply I3; auto. }
  assert (SM' := strict_tr s1 s2 M M' i j (fun k l _ _ => WM k l) SM).
  destruct K as [ups [i1 [j1 [ylo [yhi [xlo [xhi [Q1 [_ [_ [X [xv [yv [_ [_ [_ K]]]]]]]]]]]]]]]].
  destruct K' as [ups' [i2 [j2 [ylo' [yhi' [xlo' [xhi' [Q2 [_ [_ [X' [xv' [yv' [_ [_ [_ K']]]]]]]]]]]]]]]].
  rewrite (strict_argmin _ _ _ _ _ SM) in Q1. rewrite (strict_argmin _ _ _ _ _ SM') in Q2. injection Q1 as -> ->. injection Q2 as -> ->.
  destruct (extent_unique _ _ _ _ _ _ _ _ _ _ _ _ X' (extent_tr s1 s2 M M' t _ _ _ _ P1 P2 (fun k l _ _ => WM k l) X)) as [-> [-> [-> ->]]].
  do 4 eexists. split; [rewrite K, app_nil_r; reflexivity|]. split; [rewrite K', app_nil_r; reflexivity|]. rewrite <- !node_grid. auto.
Qed.
Print Assumptions C91_chi2_shift.

(** not when the factor lies between the two sides: then one call searches a window of twice the factor and the other a window of
    the size of the image, and identical images come out at offset 0 one way round and not the other *)
Lemma sym_tr ny nx f : no_real_symmetry ny nx f -> no_real_symmetry nx ny (fun y x => f x y).
Proof.
  intros H ty tx V. destruct (H tx ty) as [k [l [-> ->]]]; [|exists l, k; auto].
  intros y x Hy Hx. rewrite <- (V x y Hx Hy). unfold fshift. symmetry. apply interpR_tr. reflexivity.
Qed.
Theorem C91_chi2_shift_rectangular_refuted :
  forall e im err s k nthreads use_np zeromean nfitted return_error max_auto_size max_nsig allow_huge ny nx t,
  shape im = [ny; nx] -> (1 < ny)%Z -> Z.odd ny = true -> Z.odd nx = true -> (ny <= k < nx)%Z -> size_ok e allow_huge ny nx ->
  (err = ErrNone /\ s = 1 \/ err = ErrScalar s /\ s <> 0) -> one_sigma e t ->
  no_real_symmetry ny nx (prep zeromean im ny nx) ->
  exists x y rest rest',
    chi2_shift e im im err (UInt k) BWrap nthreads use_np zeromean nfitted false return_error false max_auto_size max_nsig allow_huge =
      Ok (RNum x :: RNum y :: rest) /\ x <> 0 /\ y <> 0 /\
    chi2_shift e (transposed im ny nx) (transposed im ny nx) err (UInt k) BWrap nthreads use_np zeromean nfitted false return_error false max_auto_size max_nsig allow_huge =
      Ok (RNum 0 :: RNum 0 :: rest').
Proof.
  intros e im err s k nt np zm nf re mas mns huge ny nx t H1 Hy Oy Ox Hk Hh Hs Ht Hsym.
  destruct (C106_identical_images_worse_above_size e im err s k nt np zm nf re false mas mns huge ny nx t) as [map0 [x0 [y0 [x [y [_ [[_ [rest E]] [_ [_ [_ [X [Y _]]]]]]]]]]]]; auto; try lia.
  destruct (C38_roll_reproduced e (transposed im ny nx) (transposed im ny nx) err s k nt np zm nf re false mas mns huge nx ny 0 0 nx ny t) as [x' [y' [rest' [E' [_ Q]]]]]; auto; try lia.
  - split; [reflexivity|]. split; [reflexivity|]. intros a b Ha Hb. rewrite !Z.sub_0_r, !Z.mod_small by lia. reflexivity.
  - apply size_tr; auto.
  - simpl. destruct (Z.ltb_spec k nx); [repeat split; lia|lia].
  - unfold hits_pixel. rewrite Ox. reflexivity.
  - unfold hits_pixel. rewrite Oy. reflexivity.
  - assert (V := sym_tr _ _ _ Hsym). rewrite <- prep_tr_fun in V. destruct (Q V) as [EY EX].
    assert (Z0 : forall n, (0 < n)%Z -> ((n - 1) / 2 - ((n - 1) / 2 - 0) mod n = 0)%Z).
    { intros n Hn. rewrite Z.sub_0_r, Z.mod_small; [lia|]. Z.to_euclidean_division_equations; lia. }
    rewrite Z0 in EX, EY by lia. subst x' y'. exists x, y, rest, rest'. auto.
Qed.
Print Assumptions C91_chi2_shift_rectangular_refuted.

(** *** register_images *)
(** half-pixel shifts among which the coarse maximum is searched *)
Definition in_half (n : Z) (maxoff : option Z) (s : Z) : Prop := (- n <= s < n)%Z /\ bounded maxoff (n * 2) s.
(** (a/2, b/2) is the only half-pixel shift at which the modulus of the correlation is largest *)
Definition strict_half (ny nx : Z) (f g : Z -> Z -> R) (maxoff : option Z) (a b : Z) : Prop :=
  in_half ny maxoff a /\ in_half nx maxoff b /\
  forall s t, in_half ny maxoff s -> in_half nx maxoff t -> (s <> a \/ t <> b)%Z ->
    Cmod (rcc ny nx f g (IZR s / 2) (IZR t / 2)) < Cmod (rcc ny nx f g (IZR a / 2) (IZR b / 2)).
(** (A/u, B/u) is the only node of the fine grid around it at which the modulus of the correlation is largest *)
Definition strict_fine (ny nx : Z) (f g : Z -> Z -> R) (u : R) (a b A B : Z) : Prop :=
  fine_window u (IZR a / 2) A /\ fine_window u (IZR b / 2) B /\
  forall s t, fine_window u (IZR a / 2) s -> fine_window u (IZR b / 2) t -> (s <> A \/ t <> B)%Z ->
    Cmod (rcc ny nx f g (IZR s / u) (IZR t / u)) < Cmod (rcc ny nx f g (IZR A / u) (IZR B / u)).

Lemma half_within n mo s : (0 < n)%Z -> in_half n mo s -> exists s', within mo s' /\ whole_period n (IZR s' / 2 - IZR s / 2).
Proof.
  intros Hn [R B]. destruct mo as [M|].
  - cbn [bounded] in B. destruct B as [B1 B2]. destruct (Z.eq_dec s (- M)) as [->|N].
    + assert (n = M) as -> by lia. exists M. split; [simpl; lia|]. right. exists 1%Z. rewrite opp_IZR. lra.
    + exists s. split; [simpl; lia|]. right. exists 0%Z. lra.
  - exists s. split; [exact I|]. right. exists 0%Z. lra.
Qed.
Lemma whole_0 n t : whole_period n (t - t).
Proof. right. exists 0%Z. lra. Qed.
Lemma half_found ny nx f g mo a b a1 b1 : (0 < ny)%Z -> (0 < nx)%Z -> strict_half ny nx f g mo a b ->
  (- ny <= a1 < ny)%Z -> (- nx <= b1 < nx)%Z -> bounded mo (ny * 2) a1 -> bounded mo (nx * 2) b1 ->
  (forall s t, within mo s -> within mo t -> Cmod (rcc ny nx f g (IZR s / 2) (IZR t / 2)) <= Cmod (rcc ny nx f g (IZR a1 / 2) (IZR b1 / 2))) ->
  a1 = a /\ b1 = b.
Proof.
  intros Hy Hx [Ia [Ib S]] Ra Rb Ba Bb L.
  destruct (half_within ny mo a Hy Ia) as [s [Ws Ps]]. destruct (half_within nx mo b Hx Ib) as [t [Wt Pt]].
  specialize (L s t Ws Wt). rewrite (rcc_period ny nx f g (IZR s / 2) (IZR t / 2) (IZR a / 2) (IZR b / 2)) in L by auto.
  destruct (Z.eq_dec a1 a) as [->|N]; [destruct (Z.eq_dec b1 b) as [->|N]; [auto|]|]; exfalso.
  - assert (Q := S a b1 Ia (conj Rb Bb) (or_intror N)). lra.
  - assert (Q := S a1 b1 (conj Ra Ba) (conj Rb Bb) (or_introl N)). lra.
Qed.
Lemma fine_found ny nx f g u a b A B A1 B1 : strict_fine ny nx f g u a b A B ->
  fine_window u (IZR a / 2) A1 -> fine_window u (IZR b / 2) B1 ->
  (forall s t, fine_window u (IZR a / 2) s -> fine_window u (IZR b / 2) t -> Cmod (rcc ny nx f g (IZR s / u) (IZR t / u)) <= Cmod (rcc ny nx f g (IZR A1 / u) (IZR B1 / u))) ->
  A1 = A /\ B1 = B.
Proof.
  intros [IA [IB S]] WA WB L. specialize (L A B IA IB).
  destruct (Z.eq_dec A1 A) as [->|N]; [destruct (Z.eq_dec B1 B) as [->|N]; [auto|]|]; exfalso.
  - assert (Q := S A B1 IA WB (or_intror N)). lra.
  - assert (Q := S A1 B1 WA WB (or_introl N)). lra.
Qed.
Lemma strict_half_tr ny nx f g mo a b : strict_half ny nx f g mo a b -> strict_half nx ny (fun y x => f x y) (fun y x => g x y) mo b a.
Proof. intros [A [B S]]. split; [auto|]. split; [auto|]. intros s t Hs Ht N. rewrite !(rcc_tr ny nx f g). apply S; auto. tauto. Qed.
Lemma strict_fine_tr ny nx f g u a b A B : strict_fine ny nx f g u a b A B -> strict_fine nx ny (fun y x => f x y) (fun y x => g x y) u b a B A.
Proof. intros [P [Q S]]. split; [auto|]. split; [auto|]. intros s t Hs Ht N. rewrite !(rcc_tr ny nx f g). apply S; auto. tauto. Qed.

Theorem C91_register_images_half_pixel :
  forall has_fftw im1 im2 usfac return_error zeromean maxoff nthreads use_np ny nx a b,
  shape im1 = [ny; nx] -> shape im2 = [ny; nx] -> (0 < ny)%Z -> (0 < nx)%Z -> mo_ok maxoff -> usfac <> 0 -> usfac <> 1 -> usfac <= 2 ->
  strict_half ny nx (prep zeromean im1 ny nx) (prep zeromean im2 ny nx) maxoff a b ->
  exists x y,
    register_images has_fftw im1 im2 usfac false return_error zeromean maxoff nthreads use_np = Ok (nums [x; y] ++ err_out return_error usfac) /\
    register_images has_fftw (transposed im1 ny nx) (transposed im2 ny nx) usfac false return_error zeromean maxoff nthreads use_np = Ok (nums [y; x] ++ err_out return_error usfac).
Proof.
  intros hf im1 im2 u re zm mo nt np ny nx a b H1 H2 Hy Hx HM U0 U1 U2 S.
  destruct (register_half hf im1 im2 u re zm mo nt np ny nx H1 H2 Hy Hx HM U0 U1 U2) as [a1 [b1 [E [Ra [Rb [Ba [Bb L]]]]]]].
  destruct (register_half hf (transposed im1 ny nx) (transposed im2 ny nx) u re zm mo nt np nx ny eq_refl eq_refl Hx Hy HM U0 U1 U2) as [b2 [a2 [E' [Rb' [Ra' [Bb' [Ba' L']]]]]]].
  rewrite !prep_tr_fun in L'.
  destruct (half_found ny nx _ _ mo a b a1 b1 Hy Hx S Ra Rb Ba Bb L) as [-> ->].
  destruct (half_found nx ny _ _ mo b a b2 a2 Hx Hy (strict_half_tr _ _ _ _ _ _ _ S) Rb' Ra' Bb' Ba' L') as [-> ->].
  rewrite err_out_part in E, E'. do 2 eexists. split; [exact E|exact E'].
Qed.
Print Assumptions C91_register_images_half_pixel.

Theorem C91_register_images_upsampled :
  forall has_fftw im1 im2 usfac return_error zeromean maxoff nthreads use_np ny nx a b A B,
  shape im1 = [ny; nx] -> shape im2 = [ny; nx] -> (0 < ny)%Z -> (0 < nx)%Z -> mo_ok maxoff -> 2 < usfac ->
  let f := prep zeromean im1 ny nx in let g := prep zeromean im2 ny nx in
  strict_half ny nx f g maxoff a b -> strict_fine ny nx f g usfac a b A B ->
  exists x y,
    register_images has_fftw im1 im2 usfac false return_error zeromean maxoff nthreads use_np = Ok (nums [x; y] ++ err_out return_error usfac) /\
    register_images has_fftw (transposed im1 ny nx) (transposed im2 ny nx) usfac false return_error zeromean maxoff nthreads use_np = Ok (nums [y; x] ++ err_out return_error usfac).
Proof.
  intros hf im1 im2 u re zm mo nt np ny nx a b A B H1 H2 Hy Hx HM U2 f g S F.
  destruct (register_fine hf im1 im2 u re zm mo nt np ny nx H1 H2 Hy Hx HM U2) as [a1 [b1 [A1 [B1 [E [Ra [Rb [Ba [Bb [L [WA [WB M]]]]]]]]]]]].
  destruct (register_fine hf (transposed im1 ny nx) (transposed im2 ny nx) u re zm mo nt np nx ny eq_refl eq_refl Hx Hy HM U2) as [b2 [a2 [B2 [A2 [E' [Rb' [Ra' [Bb' [Ba' [L' [WB' [WA' M']]]]]]]]]]]].
  rewrite !prep_tr_fun in L', M'. fold f g in L, M.
  destruct (half_found ny nx f g mo a b a1 b1 Hy Hx S Ra Rb Ba Bb L) as [-> ->].
  destruct (half_found nx ny _ _ mo b a b2 a2 Hx Hy (strict_half_tr _ _ _ _ _ _ _ S) Rb' Ra' Bb' Ba' L') as [-> ->].
  destruct (fine_found ny nx f g u a b A B A1 B1 F WA WB M) as [-> ->].
  destruct (fine_found nx ny _ _ u b a B A B2 A2 (strict_fine_tr _ _ _ _ _ _ _ _ _ F) WB' WA' M') as [-> ->].
  rewrite err_out_part in E, E'. do 2 eexists. split; [exact E|exact E'].
Qed.
Print Assumptions C91_register_images_upsampled.

(** *** the hypotheses can be met *)
Example C91_chi2_shift_nonvacuous :
  let e := Env false (2 ^ 30) false (fun _ _ => NaN) in
  one_sigma e (159358435 / 100000000) /\ size_ok e false 5 5 /\ same_side (UInt 3) 5 5 /\ grid_given (UInt 3) 5 5 512 /\
  exists map0 t1 t2 t3,
    chi2n_map e delta5 delta5 ErrNone BWrap 1 false true true false false = Ok (Chi2All map0 t1 t2 t3) /\
    strict_min 5 5 (g2 map0) 2 2 /\ final_grid e (UInt 3) 5 5 map0 2 2 512 3 2 3 5 5 /\
    strict_min 5 5 (fun a b => chi2_at 5 5 map0 (grid_shift 5 2 5 3 a) (grid_shift 5 2 5 3 b)) 2 2.
Proof.
  cbv zeta. set (e := Env false (2 ^ 30) false (fun _ _ => NaN)). destruct C38_nonvacuous as [_ [Hsym [Hs [Hz _]]]]. fold e in Hs, Hz.
  assert (EG : explicit_grid (UInt 3) 5 5 3 5 5) by (simpl; repeat split; lia).
  split; [exact Hs|]. split; [exact Hz|]. split; [simpl; lia|]. split; [exists 3, 5%Z, 5%Z; exact EG|].
  destruct (chi2n_map_ok e delta5 delta5 ErrNone 1 false true true false false 5 5 eq_refl eq_refl ltac:(lia) ltac:(lia) I Hz ltac:(discriminate)) as [c [t1 [t2 [t3 [E [Sc _]]]]]].
  exists c, t1, t2, t3. split; [exact E|].
  destruct (map_interp e delta5 delta5 ErrNone 1 1 false true false 5 5 c t1 t2 t3 eq_refl eq_refl ltac:(lia) ltac:(lia) Hz (or_introl (conj eq_refl eq_refl)) E) as [_ [V Ic]].
  set (f := prep false delta5 5 5) in *.
  assert (IC : forall a b, chi2_at 5 5 c a b = chi2c 5 5 f f 1 a b) by (intros; apply Ic; reflexivity).
  split.
  { split; [lia|]. split; [lia|]. intros k l Hk Hl N. rewrite !V by lia. change ((5 - 1) / 2 - 2)%Z with 0%Z. change ((5 - 1) / 2)%Z with 2%Z.
    assert (Z : chi2_of 5 5 f f (fun _ _ => 1) 0 0 = 0).
    { apply sum2_const0. intros i j Hi Hj. rewrite !Z.sub_0_r, !Z.mod_small by auto. unfold Rdiv. ring. }
    rewrite Z. assert (P : 0 <= chi2_of 5 5 f f (fun _ _ => 1) (2 - k) (2 - l)) by (apply sum2_nonneg; intros; apply pow2_ge_0).
    destruct P as [P|P]; [exact P|]. exfalso.
    assert (W := sum2_nonneg_0 5 5 (fun i j => ((f i j - f ((i - (2 - k)) mod 5)%Z ((j - (2 - l)) mod 5)%Z) / 1) ^ 2)
         ltac:(intros; apply pow2_ge_0) (eq_sym P) 1%Z 3%Z ltac:(lia) ltac:(lia)).
    cbv beta in W. cbn [pow] in W. rewrite Rmult_1_r in W. apply Rsqr_0_uniq in W.
    assert (F0 : f 1%Z 3%Z = 7) by reflexivity.
    assert (F1 : f ((1 - (2 - k)) mod 5)%Z ((3 - (2 - l)) mod 5)%Z = 0).
    { unfold f, prep, delta5. cbn [get mk2]. destruct (Z.eqb_spec ((1 - (2 - k)) mod 5) 1) as [A|A]; [|reflexivity].
      destruct (Z.eqb_spec ((3 - (2 - l)) mod 5) 3) as [B|B]; [|reflexivity]. exfalso. Z.to_euclidean_division_equations; lia. }
    rewrite F0, F1 in W. lra. }
  split; [exact EG|].
  assert (GS : forall a, grid_shift 5 2 5 3 a = (2 - IZR a) / 3).
  { intros a. unfold grid_shift. change (Z.even 5) with false. change ((5 - 1) / 2)%Z with 2%Z. cbv iota. field. }
  split; [lia|]. split; [lia|]. intros a b Ha Hb N. rewrite !GS, !IC.
  assert (Z : chi2c 5 5 f f 1 ((2 - 2) / 3) ((2 - 2) / 3) = 0).
  { apply sum2_const0. intros i j Hi Hj. replace ((2 - 2) / 3) with (IZR 0) by field.
    rewrite fshift_int by (auto; lia). rewrite !Z.sub_0_r, !Z.mod_small by auto. unfold Rdiv. ring. }
  rewrite Z. assert (P : 0 <= chi2c 5 5 f f 1 ((2 - IZR a) / 3) ((2 - IZR b) / 3)) by (apply sum2_nonneg; intros; apply pow2_ge_0).
  destruct P as [P|P]; [exact P|]. exfalso.
  destruct (Hsym ((2 - IZR a) / 3) ((2 - IZR b) / 3)) as [p [q [A B]]].
  - intros y x Hy Hx.
    assert (W := sum2_nonneg_0 5 5 (fun i j => ((f i j - fshift 5 5 f ((2 - IZR a) / 3) ((2 - IZR b) / 3) i j) / 1) ^ 2)
         ltac:(intros; apply pow2_ge_0) (eq_sym P) y x Hy Hx).
    cbv beta in W. cbn [pow] in W. rewrite Rmult_1_r in W. apply Rsqr_0_uniq in W. fold f. lra.
  - assert (K : forall z m, (0 <= z < 5)%Z -> (2 - IZR z) / 3 = IZR m * 5 -> z = 2%Z).
    { intros z m Hz' Q. assert (IZR (2 - z) = IZR (15 * m)) as G by (rewrite minus_IZR, mult_IZR; lra). apply eq_IZR in G. lia. }
    assert (a = 2%Z) by (eapply K; eauto). assert (b = 2%Z) by (eapply K; eauto). lia.
Qed.

Example C91_register_images_nonvacuous : let f := prep false (dot 4 5 1 1) 4 5 in let g := prep false (dot 4 5 2 4) 4 5 in
  strict_half 4 5 f g None 2 (-4) /\ strict_fine 4 5 f g 3 2 (-4) 3 (-6).
Proof.
  cbv zeta. set (f := prep false (dot 4 5 1 1) 4 5). set (g := prep false (dot 4 5 2 4) 4 5).
  assert (Hp := dot_no_phase_symmetry 4 5 1 1 ltac:(lia) ltac:(lia) ltac:(lia) ltac:(lia)). fold f in Hp.
  assert (Hr : forall y x, (0 <= y < 4)%Z -> (0 <= x < 5)%Z -> g y x = f ((y - 1) mod 4)%Z ((x - -2) mod 5)%Z).
  { intros y x Hy Hx. unfold f, g, prep, dot. cbn [get mk2]. f_equal.
    destruct (Z.eqb_spec y 2), (Z.eqb_spec x 4), (Z.eqb_spec ((y - 1) mod 4) 1), (Z.eqb_spec ((x - -2) mod 5) 1); try reflexivity; exfalso; Z.to_euclidean_division_equations; lia. }
  assert (S := fun ty tx => rcc_strict 4 5 f g 1 (-2) ltac:(lia) ltac:(lia) Hr ty tx Hp).
  assert (RU : forall z, roundR (IZR (2 * z) / 2 * 3) = (3 * z)%Z).
  { intros z. apply roundR_near. rewrite !mult_IZR. replace (2 * IZR z / 2 * 3 - 3 * IZR z) with 0 by field. rewrite Rabs_R0. lra. }
  assert (CE : ceilR (3 * (3 / 2)) = 5%Z) by (apply ceilR_unique; lra).
  assert (FW : forall w z s, w = IZR (2 * z) -> fine_window 3 (w / 2) s <-> (3 * z - 2 <= s <= 3 * z + 2)%Z).
  { intros w z s ->. unfold fine_window. rewrite RU, CE. change ((5 - 1) / 2)%Z with 2%Z. change (5 / 2)%Z with 2%Z. lia. }
  assert (E1 : IZR 2 = IZR (2 * 1)) by reflexivity. assert (E2 : IZR (-4) = IZR (2 * -2)) by reflexivity.
  split.
  - split; [split; [lia|exact I]|]. split; [split; [lia|exact I]|]. intros s t [Hs _] [Ht _] N.
    replace (IZR 2 / 2) with (IZR 1) by lra. replace (IZR (-4) / 2) with (IZR (-2)) by lra. apply S.
    intros [[A|[k A]] [B|[l B]]]; try lia.
    assert (IZR s = IZR (2 + 8 * k)) as G by (rewrite plus_IZR, mult_IZR; lra). apply eq_IZR in G.
    assert (IZR t = IZR (-4 + 10 * l)) as G' by (rewrite plus_IZR, mult_IZR; lra). apply eq_IZR in G'. lia.
  - split; [apply (FW _ 1%Z _ E1); lia|]. split; [apply (FW _ (-2)%Z _ E2); lia|]. intros s t Hs Ht N.
    apply (FW _ 1%Z _ E1) in Hs. apply (FW _ (-2)%Z _ E2) in Ht. replace (IZR 3 / 3) with (IZR 1) by lra. replace (IZR (-6) / 3) with (IZR (-2)) by lra. apply S.
    intros [[A|[k A]] [B|[l B]]]; try lia.
    assert (IZR s = IZR (3 + 12 * k)) as G by (rewrite plus_IZR, mult_IZR; lra). apply eq_IZR in G.
    assert (IZR t = IZR (-6 + 15 * l)) as G' by (rewrite plus_IZR, mult_IZR; lra). apply eq_IZR in G'. lia.
Qed.
