(** iterative_zoom and iterative_zoom_1d as the zoom loop over samples of the interpolant *)
From Coq Require Import ZArith Lia List Reals Lra Bool Sorted.
From Coquelicot Require Import Complex.
From Verif Require Import Base NDim DFT Kernel Num Py M_fast_ffts M_shift M_scale M_zoom M_downsample L_downsample M_convolve M_correlate Arg M_chi2 M_iterzoom Spec Spec5 L_shift L_scale L_zoom P_zoom L_iterzoom L_iterzoom2.
Import ListNotations.
Open Scope R_scope.

(** *** C order is sorted *)
Definition lex (p q : Z * Z) : Prop := (fst p < fst q \/ fst p = fst q /\ snd p < snd q)%Z.
Lemma sorted_app {A} (lt : A -> A -> Prop) l m : StronglySorted lt l -> StronglySorted lt m -> (forall a b, In a l -> In b m -> lt a b) -> StronglySorted lt (l ++ m).
Proof.
  induction l as [|a l IH]; intros Hl Hm H; [exact Hm|]. inversion Hl as [|? ? S F]; subst. simpl. constructor.
  - apply IH; auto. intros; apply H; simpl; auto.
  - apply Forall_forall. intros b Hb. apply in_app_or in Hb. destruct Hb as [Hb|Hb]; [rewrite Forall_forall in F; auto|apply H; simpl; auto].
Qed.
Lemma zrange_sorted n : StronglySorted Z.lt (zrange n).
Proof.
  destruct (Z.le_gt_cases n 0) as [L|L]; [rewrite zrange_nonpos by lia; constructor|].
  revert n L. assert (H : forall k : nat, StronglySorted Z.lt (zrange (Z.of_nat k))).
  { induction k as [|k IH]; [constructor|]. rewrite Nat2Z.inj_succ, <- Z.add_1_r, zrange_succ by lia. apply sorted_app; [auto|repeat constructor|].
    intros a b Ha [<-|[]]. apply zrange_In in Ha. lia. }
  intros n L. rewrite <- (Z2Nat.id n) by lia. apply H.
Qed.
Lemma row_sorted (y : Z) m : StronglySorted Z.lt m -> StronglySorted lex (map (fun x => (y, x)) m).
Proof.
  induction m as [|x m IHm]; intros ZS; [constructor|]. inversion ZS as [|? ? Z' G]; subst. simpl. constructor; [auto|].
  rewrite Forall_forall in G. apply Forall_forall. intros q Hq. apply in_map_iff in Hq. destruct Hq as [x' [<- Hx']]. right. simpl. split; [lia|]. apply G; auto.
Qed.
Lemma pixels_sorted ny nx : StronglySorted lex (pixels ny nx).
Proof.
  unfold pixels. assert (H : forall l, StronglySorted Z.lt l -> StronglySorted lex (flat_map (fun y => map (fun x => (y, x)) (zrange nx)) l)).
  { induction l as [|y l IH]; intros S; [constructor|]. inversion S as [|? ? S' F]; subst. rewrite Forall_forall in F. simpl. apply sorted_app; [|auto|].
    - apply row_sorted, zrange_sorted.
    - intros a b Ha Hb. apply in_map_iff in Ha. destruct Ha as [x [<- _]]. apply in_flat_map in Hb. destruct Hb as [y' [Hy' Hb]].
      apply in_map_iff in Hb. destruct Hb as [x' [<- _]]. left. simpl. apply F; auto. }
  apply H, zrange_sorted.
Qed.
Lemma first_best_map {A} (lt : A -> A -> Prop) mm (g : A -> list R * R) l p : (forall a b, lt a b -> ~ lt b a) -> StronglySorted lt l ->
  first_best mm (map g l) p -> exists a, In a l /\ p = g a /\ (forall b, In b l -> sgn mm * snd (g a) <= sgn mm * snd (g b)) /\
    (forall b, In b l -> lt b a -> sgn mm * snd (g a) < sgn mm * snd (g b)).
Proof.
  intros As S [l1 [l2 [E [H1 H2]]]]. apply map_eq_app in E.
  assert (Q : exists m1 a m2, l = m1 ++ a :: m2 /\ map g m1 = l1 /\ g a = p /\ map g m2 = l2).
  { destruct E as [m1 [m2 [-> [E1 E2]]]]. destruct m2 as [|a m2]; [discriminate|]. injection E2 as E2 E3. exists m1, a, m2. auto. }
  destruct Q as [m1 [a [m2 [-> [<- [<- <-]]]]]]. exists a. split; [apply in_or_app; simpl; auto|]. split; [reflexivity|].
  assert (G1 : forall b, In b m1 -> sgn mm * snd (g a) < sgn mm * snd (g b)) by (intros b Hb; apply H1, in_map; auto).
  assert (G2 : forall b, In b m2 -> sgn mm * snd (g a) <= sgn mm * snd (g b)) by (intros b Hb; apply H2, in_map; auto).
  split; intros b Hb; apply in_app_or in Hb; destruct Hb as [Hb|[<-|Hb]]; try (left; auto; fail); auto; try lra.
  - intros L. exfalso. apply (As _ _ L L).
  - intros L. exfalso. apply (As _ _ L). clear - S Hb. induction m1 as [|c m1 IH]; simpl in S; inversion S as [|? ? S' F]; subst; [rewrite Forall_forall in F; auto|auto].
Qed.
Lemma first_best_pixel mm ny nx f p : first_best mm (pixel_view ny nx f) p ->
  exists y x, best_pixel mm ny nx f y x /\ p = ([IZR y; IZR x], f y x).
Proof.
  intros H. apply (first_best_map lex) in H; [|unfold lex; intros; lia|apply pixels_sorted].
  destruct H as [[y x] [Hi [-> [M S]]]]. exists y, x. split; [|reflexivity]. apply pixels_In in Hi. destruct Hi as [Hy Hx].
  split; [exact Hy|]. split; [exact Hx|]. cbn [fst snd] in *. split.
  - intros i j Hi Hj. apply (M (i, j)). apply pixels_In; auto.
  - intros i j Hi Hj Hl. apply (S (i, j)); [apply pixels_In; auto|exact Hl].
Qed.
Lemma first_best_index mm n f p : first_best mm (pixel_view1 n f) p -> exists i, best_index mm n f i /\ p = ([IZR i], f i).
Proof.
  intros H. apply (first_best_map Z.lt) in H; [|intros; lia|apply zrange_sorted].
  destruct H as [i [Hi [-> [M S]]]]. exists i. split; [|reflexivity]. apply zrange_In in Hi. split; [exact Hi|]. split.
  - intros j Hj. apply (M j). apply zrange_In; auto.
  - intros j Hj. apply (S j); [apply zrange_In; lia|lia].
Qed.
Lemma best_pixel_unique mm ny nx f y x y' x' : best_pixel mm ny nx f y x -> best_pixel mm ny nx f y' x' -> y = y' /\ x = x'.
Proof. intros A B. assert (E := is_argmin2_unique _ _ _ _ _ A B). injection E as -> ->. auto. Qed.
Lemma best_index_unique mm n f p q : best_index mm n f p -> best_index mm n f q -> p = q.
Proof.
  intros [A1 [A2 A3]] [B1 [B2 B3]]. destruct (Z.lt_trichotomy p q) as [L|[E|L]]; [|exact E|].
  - specialize (B3 p ltac:(lia)). specialize (A2 q ltac:(lia)). lra.
  - specialize (A3 q ltac:(lia)). specialize (B2 p ltac:(lia)). lra.
Qed.

(** *** the zoom *)
Definition zoom2 (env : bool) (image : arr num) (ny nx : Z) (zoomshape : list Z) (center : list R) (zf : R) : res view :=
  let! z := zoom_on_pixel env (Arr [ny; nx] (fun i => RtoC (nan0 (get image i)))) center zf (Some zoomshape) 1 false true true in view_of_zoom2 z.
Definition zoom1 (env : bool) (data : arr num) (n : Z) (zoomshape : list Z) (center : list R) (zf : R) : res view :=
  let! z := zoom_on_pixel env (Arr [n] (fun i => RtoC (nan0 (get data i)))) center zf (Some zoomshape) 1 false true true in view_of_zoom1 z.
Definition finite (image : arr num) (i : list Z) : R := nan0 (get image i).

Lemma zoom2_view env image ny nx my mx cy cx zf : (0 < ny)%Z -> (0 < nx)%Z -> (0 < my)%Z -> (0 < mx)%Z -> zf <> 0 ->
  zoom2 env image ny nx [my; mx] [cy; cx] zf = Ok (zoomed_view ny nx (finite image) my mx cy cx zf).
Proof.
  intros Hy Hx Hmy Hmx Hz. unfold zoom2.
  destruct (zoom2_ok env (Arr [ny; nx] (fun i => RtoC (nan0 (get image i)))) ny nx cy cx zf (Some [my; mx]) my mx 1 false true true) as [xs [r [H1 [H2 [H3 H4]]]]]; auto.
  rewrite H1. cbn [bind with_xouts pick_real view_of_zoom2]. cbn [shape amap]. rewrite H3. f_equal. unfold view2, zoomed_view.
  apply map_ext_in. intros [i j] Hij. apply pixels_In in Hij. destruct Hij as [Hi Hj]. cbn [fst snd]. destruct (H4 i j Hi Hj) as [E1 [E2 E3]].
  rewrite E1, E2. unfold g2 at 1. cbn [get amap]. change (get r [i; j]) with (g2 r i j). rewrite E3. cbn [get].
  rewrite (interpN_realpart [ny; nx] (finite image)) by (auto; repeat constructor; auto). reflexivity.
Qed.
Lemma zoom1_view env data n m c zf : (0 < n)%Z -> (0 <= m)%Z -> m <> 1%Z -> zf <> 0 ->
  zoom1 env data n [m] [c] zf = Ok (zoomed_view1 n (finite data) m c zf).
Proof.
  intros Hn Hm Hm1 Hz. unfold zoom1.
  destruct (zoom1_ok env (Arr [n] (fun i => RtoC (nan0 (get data i)))) n c zf (Some [m]) m 1 false true true) as [xs [r [H1 [H2 [H3 H4]]]]]; auto.
  rewrite H1. cbn [bind with_xouts pick_real view_of_zoom1]. cbn [shape amap]. rewrite H3. f_equal. unfold view1, zoomed_view1.
  apply map_ext_in. intros j Hj. apply zrange_In in Hj. destruct (H4 j Hj) as [E1 E3].
  rewrite E1. unfold g1 at 1. cbn [get amap]. change (get r [j]) with (g1 r j). rewrite E3. cbn [get].
  rewrite (interpN_realpart [n] (finite data)) by (auto; repeat constructor; auto). reflexivity.
Qed.

Definition pack (rz rc : bool) (o : option (res zstate)) : option (res zoomout) :=
  match o with None => None | Some (Raise e) => Some (Raise e) | Some (Ok s) => Some (zresult rz rc s) end.
Lemma iterative_zoom_loop env fuel image ny nx mindiff zs rz step mm rc : shape image = [ny; nx] -> (0 < ny)%Z -> (0 < nx)%Z ->
  iterative_zoom env fuel image mindiff zs rz step mm rc =
  if has_nan [ny; nx] image then Some (Raise ValueError) else
  pack rz rc (zloop fuel mm mindiff step [IZR (ny - 1) / 2; IZR (nx - 1) / 2] (zoom2 env image ny nx zs)
                (pixel_view ny nx (fun y x => finite image [y; x])) 1 None [0; 0]).
Proof.
  intros Hs Hy Hx. unfold iterative_zoom. rewrite Hs. destruct (Z.leb_spec ny 0); [lia|]. destruct (Z.leb_spec nx 0); [lia|]. reflexivity.
Qed.
Lemma iterative_zoom_1d_loop env fuel data n mindiff zs rz step mm rc : shape data = [n] -> (0 < n)%Z ->
  iterative_zoom_1d env fuel data mindiff zs rz step mm rc =
  if has_nan [n] data then Some (Raise ValueError) else
  pack rz rc (zloop fuel mm mindiff step [IZR (n - 1) / 2] (zoom1 env data n zs) (pixel_view1 n (fun x => finite data [x])) 1 None [0]).
Proof.
  intros Hs Hn. unfold iterative_zoom_1d. rewrite Hs. destruct (Z.leb_spec n 0); [lia|]. reflexivity.
Qed.

(** *** the samples *)
Definition good2 (c : list R) : Prop := exists a b, c = [a; b].
Definition good1 (c : list R) : Prop := exists a, c = [a].
Lemma pixels_nonempty ny nx : (0 < ny)%Z -> (0 < nx)%Z -> pixels ny nx <> [].
Proof. intros Hy Hx E. assert (H : In (0, 0)%Z (pixels ny nx)) by (apply pixels_In; lia). rewrite E in H. destruct H. Qed.
Lemma zrange_nonempty n : (0 < n)%Z -> zrange n <> [].
Proof. intros H E. destruct (zrange_cons n H) as [l E']. congruence. Qed.
Lemma map_nonempty {A B} (f : A -> B) l : l <> [] -> map f l <> [].
Proof. destruct l; simpl; congruence. Qed.

Lemma sample_at_diff c u m i j : 0 < u -> (0 <= i < m)%Z -> (0 <= j < m)%Z -> Rabs (sample_at c u m i - sample_at c u m j) <= IZR (m - 1) / u.
Proof.
  intros Hu Hi Hj. unfold sample_at. replace (c + (IZR i - (IZR m - 1) / 2) / u - (c + (IZR j - (IZR m - 1) / 2) / u)) with (IZR (i - j) / u) by (rewrite minus_IZR; field; lra).
  unfold Rdiv. rewrite Rabs_mult, (Rabs_right (/ u)) by (apply Rle_ge, Rlt_le, Rinv_0_lt_compat; auto).
  apply Rmult_le_compat_r; [left; apply Rinv_0_lt_compat; auto|]. rewrite <- abs_IZR. apply IZR_le. lia.
Qed.
Lemma sample_at_close c u m j : 0 < u -> (0 <= j < m)%Z -> Rabs (sample_at c u m j - c) <= IZR (m - 1) / 2 * / u.
Proof.
  intros Hu Hj. unfold sample_at. replace (c + (IZR j - (IZR m - 1) / 2) / u - c) with (IZR (2 * j - (m - 1)) / 2 * / u) by (rewrite minus_IZR, mult_IZR, minus_IZR; field; lra).
  rewrite Rabs_mult, (Rabs_right (/ u)) by (apply Rle_ge, Rlt_le, Rinv_0_lt_compat; auto).
  apply Rmult_le_compat_r; [left; apply Rinv_0_lt_compat; auto|]. unfold Rdiv. rewrite Rabs_mult, (Rabs_right (/ 2)) by lra.
  apply Rmult_le_compat_r; [lra|]. rewrite <- abs_IZR. apply IZR_le. lia.
Qed.

Section two.
  Variables (env : bool) (image : arr num) (ny nx my mx : Z).
  Hypothesis (Hy : (0 < ny)%Z) (Hx : (0 < nx)%Z) (Hmy : (0 < my)%Z) (Hmx : (0 < mx)%Z).
  Definition mass2 : R := sumNR [ny; nx] (fun i => Rabs (finite image i)).
  Lemma zoom2_spread c zf : good2 c -> 0 < zf -> exists v', zoom2 env image ny nx [my; mx] c zf = Ok v' /\ v' <> [] /\ (forall p, In p v' -> good2 (fst p)) /\
    forall p q, In p v' -> In q v' -> Rabs (snd p - snd q) <= (PI * mass2 * (IZR (my - 1) + IZR (mx - 1))) / zf.
  Proof.
    intros [a [b ->]] Hz. eexists. split; [apply zoom2_view; auto; lra|]. unfold zoomed_view. split; [apply map_nonempty, pixels_nonempty; auto|]. split.
    - intros p Hp. apply in_map_iff in Hp. destruct Hp as [q [<- _]]. eexists; eexists; reflexivity.
    - intros p q Hp Hq. apply in_map_iff in Hp. destruct Hp as [[i j] [<- Hp]]. apply in_map_iff in Hq. destruct Hq as [[i' j'] [<- Hq]].
      apply pixels_In in Hp. apply pixels_In in Hq. cbn [fst snd]. eapply Rle_trans; [apply trig_interpR_lip; [repeat constructor; auto|reflexivity]|].
      fold mass2. unfold Rdiv. rewrite (Rmult_assoc (PI * mass2)). apply Rmult_le_compat_l.
      + apply Rmult_le_pos; [assert (P := PI_RGT_0); lra|]. apply sumNR_nonneg. intros; apply Rabs_pos.
      + cbn [l1]. assert (A := sample_at_diff a zf my i i' Hz (proj1 Hp) (proj1 Hq)). assert (B := sample_at_diff b zf mx j j' Hz (proj2 Hp) (proj2 Hq)). unfold Rdiv in *. lra.
  Qed.
  Lemma zoom2_samples c zf v' : good2 c -> 0 < zf -> zoom2 env image ny nx [my; mx] c zf = Ok v' -> v' <> [] /\
    forall p, In p v' -> good2 (fst p) /\ close [IZR (my - 1) / 2; IZR (mx - 1) / 2] (/ zf) (fst p) c /\ snd p = trig_interpR [ny; nx] (finite image) (fst p).
  Proof.
    intros [a [b ->]] Hz. rewrite zoom2_view by (auto; lra). intros [= <-]. unfold zoomed_view. split; [apply map_nonempty, pixels_nonempty; auto|].
    intros p Hp. apply in_map_iff in Hp. destruct Hp as [[i j] [<- Hp]]. apply pixels_In in Hp. cbn [fst snd]. split; [eexists; eexists; reflexivity|]. split; [|reflexivity].
    split; [reflexivity|]. intros [|[|[|d]]]; cbn [nth]; [apply sample_at_close; tauto|apply sample_at_close; tauto| |];
      rewrite Rminus_diag_eq, Rabs_R0 by reflexivity; lra.
  Qed.
  Lemma pixel_value y x : (0 <= y < ny)%Z -> (0 <= x < nx)%Z -> trig_interpR [ny; nx] (finite image) [IZR y; IZR x] = finite image [y; x].
  Proof.
    intros Hy' Hx'. assert (Hp : pos_shape [ny; nx]) by (repeat constructor; auto).
    rewrite <- interpN_realpart by auto. change [IZR y; IZR x] with (toR [y; x]). rewrite interpN_int by auto.
    rewrite modl_small by (simpl; lia). reflexivity.
  Qed.
  Lemma pixel_view_ok p : In p (pixel_view ny nx (fun y x => finite image [y; x])) -> good2 (fst p) /\ snd p = trig_interpR [ny; nx] (finite image) (fst p).
  Proof.
    intros Hp. apply in_map_iff in Hp. destruct Hp as [[i j] [<- Hp]]. apply pixels_In in Hp. cbn [fst snd]. split; [eexists; eexists; reflexivity|].
    symmetry. apply pixel_value; tauto.
  Qed.
  Lemma zoom2_centre c zf v' : Z.odd my = true -> Z.odd mx = true -> good2 c -> 0 < zf -> zoom2 env image ny nx [my; mx] c zf = Ok v' -> exists p, In p v' /\ fst p = c.
  Proof.
    intros Oy Ox [a [b ->]] Hz. rewrite zoom2_view by (auto; lra). intros [= <-]. unfold zoomed_view.
    apply Z.odd_spec in Oy. destruct Oy as [ky Ey]. apply Z.odd_spec in Ox. destruct Ox as [kx Ex].
    eexists. split; [apply in_map; apply (pixels_In my mx ky kx); lia|]. cbn [fst snd]. unfold sample_at. rewrite Ey, Ex, !plus_IZR, !mult_IZR. repeat f_equal; field; lra.
  Qed.
End two.
Section one.
  Variables (env : bool) (data : arr num) (n m : Z).
  Hypothesis (Hn : (0 < n)%Z) (Hm : (1 < m)%Z).
  Definition mass1 : R := sumNR [n] (fun i => Rabs (finite data i)).
  Lemma zoom1_spread c zf : good1 c -> 0 < zf -> exists v', zoom1 env data n [m] c zf = Ok v' /\ v' <> [] /\ (forall p, In p v' -> good1 (fst p)) /\
    forall p q, In p v' -> In q v' -> Rabs (snd p - snd q) <= (PI * mass1 * IZR (m - 1)) / zf.
  Proof.
    intros [a ->] Hz. eexists. split; [apply zoom1_view; auto; try lia; lra|]. unfold zoomed_view1. split; [apply map_nonempty, zrange_nonempty; lia|]. split.
    - intros p Hp. apply in_map_iff in Hp. destruct Hp as [q [<- _]]. eexists; reflexivity.
    - intros p q Hp Hq. apply in_map_iff in Hp. destruct Hp as [i [<- Hp]]. apply in_map_iff in Hq. destruct Hq as [i' [<- Hq]].
      apply zrange_In in Hp. apply zrange_In in Hq. cbn [fst snd]. eapply Rle_trans; [apply trig_interpR_lip; [repeat constructor; auto|reflexivity]|].
      fold mass1. unfold Rdiv. rewrite (Rmult_assoc (PI * mass1)). apply Rmult_le_compat_l.
      + apply Rmult_le_pos; [assert (P := PI_RGT_0); lra|]. apply sumNR_nonneg. intros; apply Rabs_pos.
      + cbn [l1]. assert (A := sample_at_diff a zf m i i' Hz Hp Hq). unfold Rdiv in *. lra.
  Qed.
  Lemma zoom1_samples c zf v' : good1 c -> 0 < zf -> zoom1 env data n [m] c zf = Ok v' -> v' <> [] /\
    forall p, In p v' -> good1 (fst p) /\ close [IZR (m - 1) / 2] (/ zf) (fst p) c /\ snd p = trig_interpR [n] (finite data) (fst p).
  Proof.
    intros [a ->] Hz. rewrite zoom1_view by (auto; try lia; lra). intros [= <-]. unfold zoomed_view1. split; [apply map_nonempty, zrange_nonempty; lia|].
    intros p Hp. apply in_map_iff in Hp. destruct Hp as [i [<- Hp]]. apply zrange_In in Hp. cbn [fst snd]. split; [eexists; reflexivity|]. split; [|reflexivity].
    split; [reflexivity|]. intros [|[|d]]; cbn [nth]; [apply sample_at_close; tauto| |];
      rewrite Rminus_diag_eq, Rabs_R0 by reflexivity; lra.
  Qed.
  Lemma pixel_value1 x : (0 <= x < n)%Z -> trig_interpR [n] (finite data) [IZR x] = finite data [x].
  Proof.
    intros Hx'. assert (Hp : pos_shape [n]) by (repeat constructor; auto).
    rewrite <- interpN_realpart by auto. change [IZR x] with (toR [x]). rewrite interpN_int by auto.
    rewrite modl_small by (simpl; lia). reflexivity.
  Qed.
  Lemma pixel_view1_ok p : In p (pixel_view1 n (fun x => finite data [x])) -> good1 (fst p) /\ snd p = trig_interpR [n] (finite data) (fst p).
  Proof.
    intros Hp. apply in_map_iff in Hp. destruct Hp as [i [<- Hp]]. apply zrange_In in Hp. cbn [fst snd]. split; [eexists; reflexivity|].
    symmetry. apply pixel_value1; tauto.
  Qed.
  Lemma zoom1_centre c zf v' : Z.odd m = true -> good1 c -> 0 < zf -> zoom1 env data n [m] c zf = Ok v' -> exists p, In p v' /\ fst p = c.
  Proof.
    intros Oy [a ->] Hz. rewrite zoom1_view by (auto; try lia; lra). intros [= <-]. unfold zoomed_view1.
    apply Z.odd_spec in Oy. destruct Oy as [k Ey].
    eexists. split; [apply in_map; apply (zrange_In m k); lia|]. cbn [fst snd]. unfold sample_at. rewrite Ey, !plus_IZR, !mult_IZR. repeat f_equal; field; lra.
  Qed.
End one.
