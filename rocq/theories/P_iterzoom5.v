(** C59, continued: images that are not two-dimensional (for iterative_zoom_1d: data that are not one-dimensional) *)
From Coq Require Import ZArith Lia List Reals Lra Bool.
From Coquelicot Require Import Complex.
From Verif Require Import Base NDim DFT Kernel Num Py M_fast_ffts M_shift M_scale M_zoom M_downsample L_downsample M_convolve M_correlate Arg M_chi2
  M_iterzoom Spec Spec2 Spec3 Spec5 Sum2 L_iterzoom L_iterzoom3 P_iterzoom P_iterzoom2.
Import ListNotations.
Open Scope R_scope.

(** the smallest non-zero difference from the extreme value of f, over the index tuples of an array of shape sh *)
Definition gap_of (mm : minmax) (sh : list Z) (f : list Z -> R) (d : R) : Prop :=
  exists p q, inb sh p /\ (forall r, inb sh r -> sgn mm * f p <= sgn mm * f r) /\ inb sh q /\ 0 < d /\ d = Rabs (f q - f p) /\
    forall r, inb sh r -> f r <> f p -> d <= Rabs (f r - f p).

Lemma all_indices_In sh : forall i, In i (all_indices sh) <-> inb sh i.
Proof.
  induction sh as [|n sh IH]; intros [|x i]; cbn [all_indices inb].
  - split; [auto|left; reflexivity].
  - split; [intros [H|[]]; discriminate|intros []].
  - rewrite in_flat_map. split; [|intros []]. intros [a [_ H]]. apply in_map_iff in H. destruct H as [b [E _]]. discriminate.
  - rewrite in_flat_map. split.
    + intros [a [Ha H]]. apply in_map_iff in H. destruct H as [b [E Hb]]. injection E as -> ->. apply zrange_In in Ha. apply IH in Hb. auto.
    + intros [Hx Hi]. exists x. split; [apply zrange_In; auto|]. apply in_map_iff. exists i. split; [reflexivity|]. apply IH. auto.
Qed.
Lemma all_indices_length sh : pos_shape sh -> length (all_indices sh) = Z.to_nat (prodZ sh).
Proof.
  induction sh as [|n sh IH]; intros H; [reflexivity|]. inversion H as [|? ? Hn Hsh]; subst. cbn [all_indices prodZ].
  assert (A : forall l : list Z, length (flat_map (fun i => map (cons i) (all_indices sh)) l) = (length l * length (all_indices sh))%nat).
  { induction l as [|a l IHl]; [reflexivity|]. cbn [flat_map length]. rewrite app_length, map_length, IHl. lia. }
  rewrite A, IH by auto. assert (L := zrange_length n ltac:(lia)). assert (P := prodZ_pos sh Hsh). rewrite Z2Nat.inj_mul by lia. lia.
Qed.

(** values of a view are those of the array *)
Definition shows (v : view) (sh : list Z) (f : list Z -> R) : Prop :=
  (forall p, In p v -> exists i, inb sh i /\ snd p = f i) /\ (forall i, inb sh i -> exists p, In p v /\ snd p = f i).
Lemma shows_nonempty v sh f : shows v sh f -> pos_shape sh -> v <> [].
Proof. intros [_ H] P E. destruct (H (zerosl sh) (inb_zeros sh P)) as [p [Hp _]]. rewrite E in Hp. destruct Hp. Qed.
Lemma shows_gap v sh f mm d : shows v sh f -> gap_of mm sh f d <-> is_gap mm v d.
Proof.
  intros [A B]. split.
  - intros [p [q [Hp [Mp [Hq [D0 [Ed Dm]]]]]]]. destruct (B p Hp) as [p' [Ip Ep]]. destruct (B q Hq) as [q' [Iq Eq]]. exists p', q'.
    rewrite Ep, Eq. split; [auto|]. split; [intros r Hr; destruct (A r Hr) as [i [Hi ->]]; auto|]. split; [auto|]. split; [auto|]. split; [auto|].
    intros r Hr. destruct (A r Hr) as [i [Hi ->]]. auto.
  - intros [p [q [Hp [Mp [Hq [D0 [Ed Dm]]]]]]]. destruct (A p Hp) as [p' [Ip Ep]]. destruct (A q Hq) as [q' [Iq Eq]]. exists p', q'.
    rewrite <- Ep, <- Eq. split; [auto|]. split; [intros r Hr; destruct (B r Hr) as [i [Hi <-]]; auto|]. split; [auto|]. split; [auto|]. split; [auto|].
    intros r Hr. destruct (B r Hr) as [i [Hi <-]]. auto.
Qed.
Lemma shows_varied v sh f : shows v sh f -> varied v -> exists i j, inb sh i /\ inb sh j /\ f i <> f j.
Proof. intros [A _] [p [q [Hp [Hq N]]]]. destruct (A p Hp) as [i [Hi Ei]]. destruct (A q Hq) as [j [Hj Ej]]. exists i, j. rewrite <- Ei, <- Ej. auto. Qed.

Lemma shows_all sh f (c : list Z -> list R) : shows (map (fun i => (c i, f i)) (all_indices sh)) sh f.
Proof.
  split.
  - intros p Hp. apply in_map_iff in Hp. destruct Hp as [i [<- Hi]]. apply all_indices_In in Hi. exists i. auto.
  - intros i Hi. exists (c i, f i). split; [|reflexivity]. apply in_map_iff. exists i. split; [reflexivity|]. apply all_indices_In. auto.
Qed.
Lemma combine_all {A B} (a : list A) : forall (b : list B), length a = length b -> forall y, In y b -> exists x, In (x, y) (combine a b).
Proof.
  induction a as [|x a IH]; intros [|z b] L y Hy; try discriminate; [destruct Hy|]. destruct Hy as [->|Hy]; [exists x; left; reflexivity|].
  injection L as L. destruct (IH b L y Hy) as [w Hw]. exists w. right. exact Hw.
Qed.
Lemma shows_flat sh f : pos_shape sh -> shows (flat_view sh f) sh f.
Proof.
  intros P. unfold flat_view. split.
  - intros p Hp. apply in_map_iff in Hp. destruct Hp as [[k i] [<- Hi]]. apply in_combine_r in Hi. apply all_indices_In in Hi. exists i. auto.
  - intros i Hi. apply all_indices_In in Hi.
    assert (L : length (zrange (prodZ sh)) = length (all_indices sh)).
    { rewrite all_indices_length by auto. assert (Q := zrange_length (prodZ sh)). assert (PP := prodZ_pos sh P). lia. }
    destruct (combine_all _ _ L i Hi) as [k Hk]. exists ([IZR k], f i). split; [|reflexivity]. apply in_map_iff. exists (k, i). auto.
Qed.

(** the two functions outside their proper rank, as loops *)
Lemma zoom_rank env fuel image mindiff zs rz step mm rc : length (shape image) <> 2%nat ->
  iterative_zoom env fuel image mindiff zs rz step mm rc =
  if negb (pos_shapeb (shape image)) then Some (Raise ValueError) else if has_nan (shape image) image then Some (Raise ValueError) else
  pack rz rc (zloop fuel mm mindiff step (map (fun n => IZR (n - 1) / 2) (firstn 2 (shape image))) (zoom_other env image zs)
    (map (fun i => (map IZR (firstn 2 i), nan0 (get image i))) (all_indices (shape image))) 1 None (repeat 0 (length (shape image)))).
Proof. intros H. unfold iterative_zoom. destruct (shape image) as [|a [|b [|c l]]]; [reflexivity|reflexivity|exfalso; apply H; reflexivity|reflexivity]. Qed.
Lemma zoom_rank_1d env fuel data mindiff zs rz step mm rc : length (shape data) <> 1%nat ->
  iterative_zoom_1d env fuel data mindiff zs rz step mm rc =
  if negb (pos_shapeb (shape data)) then Some (Raise ValueError) else if has_nan (shape data) data then Some (Raise ValueError) else
  pack rz rc (zloop fuel mm mindiff step [IZR (prodZ (shape data) - 1) / 2] (zoom_other_1d env data zs)
    (flat_view (shape data) (fun i => nan0 (get data i))) 1 None [0]).
Proof. intros H. unfold iterative_zoom_1d. destruct (shape data) as [|a [|b l]]; [reflexivity|exfalso; apply H; reflexivity|reflexivity]. Qed.

(** what happens when the first zoom raises [e] whatever its centre *)
Lemma loop_first mm mindiff step mid zoom v sh f off fuel rz rc d :
  shows v sh f -> pos_shape sh -> gap_of mm sh f d -> (0 < fuel)%nat ->
  (d <= mindiff -> pack rz rc (zloop fuel mm mindiff step mid zoom v 1 None off) =
     Some (if rc then Raise UnboundLocalError else Ok (if rz then ZZoomed v 1 off else ZResult off))) /\
  (mindiff < d -> forall e (K : list R -> Prop), (forall p, In p v -> K (fst p)) -> (forall c, K c -> zoom c step = Raise e) ->
     pack rz rc (zloop fuel mm mindiff step mid zoom v 1 None off) = Some (Raise e)).
Proof.
  intros S P G Hf. assert (Nv := shows_nonempty _ _ _ S P). apply (shows_gap _ _ _ mm d S) in G. destruct fuel as [|fuel]; [lia|].
  destruct (zloop_S mm mindiff step mid zoom fuel v 1 None off Nv) as [[N _]|[[d' [G' [L' E]]]|[d' [p [G' [L' [F E]]]]]]].
  - exfalso. apply N. destruct G as [a [q [Ha [_ [Hq [D0 [Ed _]]]]]]]. exists q, a. split; [auto|]. split; [auto|]. intros Q. rewrite Q, Rminus_diag_eq, Rabs_R0 in Ed by reflexivity. lra.
  - rewrite (gap_unique _ _ _ _ G' G) in L'. split; [|lra]. intros _. rewrite E. cbn [pack]. destruct rc; [reflexivity|]. destruct rz; reflexivity.
  - rewrite (gap_unique _ _ _ _ G' G) in L'. split; [lra|]. intros _ e K HK HZ. rewrite E. apply first_best_In in F. rewrite Rmult_1_l.
    rewrite (HZ _ (HK _ (proj1 F))). reflexivity.
Qed.

Lemma no_nan_has sh (a : arr num) : (forall i, inb sh i -> isnan (get a i) = false) -> has_nan sh a = false.
Proof. intros H. destruct (has_nan sh a) eqn:E; [|reflexivity]. apply existsN_spec in E. destruct E as [i [Hi Ei]]. rewrite H in Ei by auto. discriminate. Qed.

(** empty, constant or NaN-holding images: ValueError, whatever the rank (the 2-D case is above, apart from empty images) *)
Theorem C59_any_rank_raises :
  forall env fuel (image : arr num) mindiff zoomshape rz step mm rc,
  (0 < fuel)%nat ->
  ~ pos_shape (shape image) \/ (exists i, inb (shape image) i /\ get image i = NaN) \/
    (forall i j, inb (shape image) i -> inb (shape image) j -> get image i = get image j) ->
  iterative_zoom env fuel image mindiff zoomshape rz step mm rc = Some (Raise ValueError) /\
  iterative_zoom_1d env fuel image mindiff zoomshape rz step mm rc = Some (Raise ValueError).
Proof.
  intros env fuel image md zs rz step mm rc Hf H. set (sh := shape image) in *.
  assert (C : (pos_shapeb sh = false) \/ (pos_shapeb sh = true /\ has_nan sh image = true) \/
    (pos_shapeb sh = true /\ has_nan sh image = false /\ forall i j, inb sh i -> inb sh j -> nan0 (get image i) = nan0 (get image j))).
  { destruct (pos_shapeb sh) eqn:EP; [|auto]. right. destruct (has_nan sh image) eqn:EN; [auto|]. right. split; [auto|]. split; [auto|].
    destruct H as [H|[[i [Hi Ei]]|H]].
    - exfalso. apply H. apply pos_shapeb_spec. exact EP.
    - exfalso. assert (F := existsN_false _ _ EN i Hi). cbv beta in F. rewrite Ei in F. discriminate.
    - intros i j Hi Hj. rewrite (H i j) by auto. reflexivity. }
  clear H. split.
  - destruct (Nat.eq_dec (length sh) 2) as [E2|N2].
    + destruct (shape image) as [|ny [|nx [|x l]]] eqn:Es; try discriminate.
      destruct C as [P|[[P N]|[P [N C]]]].
      * unfold iterative_zoom. rewrite Es. destruct (_ || _)%bool eqn:EO; [reflexivity|]. exfalso. apply orb_false_iff in EO. destruct EO as [A B].
        apply Z.leb_gt in A, B. assert (Q : pos_shape [ny; nx]) by (repeat constructor; auto). apply pos_shapeb_spec in Q. unfold sh in P. congruence.
      * apply pos_shapeb_spec in P. inversion P as [|? ? P1 P2]; subst. inversion P2 as [|? ? P3 P4]; subst.
        rewrite (iterative_zoom_loop _ _ _ ny nx) by auto. unfold sh in N. rewrite N. reflexivity.
      * apply pos_shapeb_spec in P. inversion P as [|? ? P1 P2]; subst. inversion P2 as [|? ? P3 P4]; subst.
        rewrite (iterative_zoom_loop _ _ _ ny nx) by auto. unfold sh in N. rewrite N. rewrite loop_stops_if_constant; [reflexivity| | |lia].
        -- apply map_nonempty, pixels_nonempty; lia.
        -- intros V. apply pixel_view_varied in V. destruct V as [y [x [y' [x' [Hy [Hx [Hy' [Hx' D]]]]]]]]. apply D. unfold finite. apply C; unfold sh; cbn [inb]; auto.
    + rewrite zoom_rank by auto. fold sh. destruct C as [-> |[[-> ->]|[P [N C]]]]; [reflexivity|reflexivity|]. rewrite P, N. cbn [negb].
      apply pos_shapeb_spec in P. assert (S := shows_all sh (fun i => nan0 (get image i)) (fun i => map IZR (firstn 2 i))). cbv beta in S.
      rewrite loop_stops_if_constant; [reflexivity| | |lia].
      * apply (shows_nonempty _ _ _ S P).
      * intros V. apply (shows_varied _ _ _ S) in V. destruct V as [i [j [Hi [Hj D]]]]. apply D, C; auto.
  - destruct (Nat.eq_dec (length sh) 1) as [E1|N1].
    + destruct (shape image) as [|n [|x l]] eqn:Es; try discriminate.
      destruct C as [P|[[P N]|[P [N C]]]].
      * unfold iterative_zoom_1d. rewrite Es. destruct (Z.leb_spec n 0) as [A|A]; [reflexivity|]. exfalso.
        assert (Q : pos_shape [n]) by (repeat constructor; auto). apply pos_shapeb_spec in Q. unfold sh in P. congruence.
      * apply pos_shapeb_spec in P. inversion P as [|? ? P1 P2]; subst.
        rewrite (iterative_zoom_1d_loop _ _ _ n) by auto. unfold sh in N. rewrite N. reflexivity.
      * apply pos_shapeb_spec in P. inversion P as [|? ? P1 P2]; subst.
        rewrite (iterative_zoom_1d_loop _ _ _ n) by auto. unfold sh in N. rewrite N. rewrite loop_stops_if_constant; [reflexivity| | |lia].
        -- apply map_nonempty, zrange_nonempty; lia.
        -- intros [p [q [Hp [Hq D]]]]. apply in_map_iff in Hp. destruct Hp as [a [<- Ha]]. apply in_map_iff in Hq. destruct Hq as [b [<- Hb]]. apply zrange_In in Ha. apply zrange_In in Hb.
           apply D. cbn [snd]. unfold finite. apply C; unfold sh; cbn [inb]; auto.
    + rewrite zoom_rank_1d by auto. fold sh. destruct C as [-> |[[-> ->]|[P [N C]]]]; [reflexivity|reflexivity|]. rewrite P, N. cbn [negb].
      apply pos_shapeb_spec in P. assert (S := shows_flat sh (fun i => nan0 (get image i)) P).
      rewrite loop_stops_if_constant; [reflexivity| | |lia].
      * apply (shows_nonempty _ _ _ S P).
      * intros V. apply (shows_varied _ _ _ S) in V. destruct V as [i [j [Hi [Hj D]]]]. apply D, C; auto.
Qed.
Print Assumptions C59_any_rank_raises.

(** iterative_zoom on an image that is not 2-D never zooms: it returns zeros if the differences are small, and raises otherwise *)
Theorem C59_other_ranks :
  forall env fuel (image : arr num) mindiff zoomshape (rz : bool) step mm (rc : bool) d,
  length (shape image) <> 2%nat -> pos_shape (shape image) -> (forall i, inb (shape image) i -> isnan (get image i) = false) -> (0 < fuel)%nat ->
  gap_of mm (shape image) (fun i => nan0 (get image i)) d ->
  let result := iterative_zoom env fuel image mindiff zoomshape rz step mm rc in
  (d <= mindiff -> rc = true -> result = Some (Raise UnboundLocalError)) /\
  (d <= mindiff -> rc = false -> rz = false -> result = Some (Ok (ZResult (repeat 0 (length (shape image)))))) /\
  (mindiff < d -> length (shape image) = 1%nat -> result = Some (Raise IndexError)) /\
  (mindiff < d -> (3 <= length (shape image))%nat -> step <> 0 ->
    (forall m, In m zoomshape -> 0 <= m)%Z ->
    (length zoomshape = 2%nat -> nth 0 zoomshape 0%Z <> 1%Z -> result = Some (Raise ValueError)) /\
    (length zoomshape = length (shape image) -> result = Some (Raise NotImplementedError))).
Proof.
  intros env fuel image md zs rz step mm rc d H2 P HN Hf G result. unfold result. rewrite zoom_rank by auto.
  rewrite (proj2 (pos_shapeb_spec _) P), no_nan_has by auto. cbn [negb].
  assert (S := shows_all (shape image) (fun i => nan0 (get image i)) (fun i => map IZR (firstn 2 i))). cbv beta in S.
  match goal with |- context [zloop _ _ _ _ ?mid ?zm ?v _ _ ?off] => destruct (loop_first mm md step mid zm v (shape image) _ off fuel rz rc d S P G Hf) as [A B] end.
  split; [intros L ->; rewrite A; auto|]. split; [intros L -> ->; rewrite A; auto|].
  split.
  - intros L L1. apply (B L IndexError (fun _ => True)); [auto|]. intros c _. unfold zoom_other. destruct (shape image) as [|a [|b l]]; try discriminate. reflexivity.
  - intros L L3 Hst Hz.
    assert (Ez : existsb (fun m => (m <? 0)%Z) zs = false).
    { destruct (existsb _ zs) eqn:E; [|reflexivity]. apply existsb_exists in E. destruct E as [m [Hm Em]]. apply Z.ltb_lt in Em. specialize (Hz m Hm). lia. }
    split.
    + intros Lz Nz. apply (B L ValueError (fun c => (0 < length c)%nat)).
      { intros p Hp. apply in_map_iff in Hp. destruct Hp as [i [<- Hi]]. apply all_indices_In, inb_length in Hi. cbn [fst]. rewrite map_length, firstn_length. lia. }
      intros c Hc. unfold zoom_other. destruct (shape image) as [|a [|b [|x l]]] eqn:Es; cbn [length] in L3; try lia.
      unfold zoom_on_pixel. cbn [shape]. destruct zs as [|m0 [|m1 [|m2 zs]]]; try discriminate. cbn [length Nat.eqb negb bind].
      unfold wrong_outshape. cbn [length Nat.ltb Nat.leb]. cbn [nth] in Nz. destruct (Z.eqb_spec m0 1) as [|_]; [contradiction|].
      destruct c as [|c0 c]; [cbn in Hc; lia|]. cbn [length Nat.ltb Nat.leb negb andb]. rewrite Ez.
      destruct (Req_EM_T step 0); [contradiction|]. reflexivity.
    + intros Lz. apply (B L NotImplementedError (fun _ => True)); [auto|]. intros c _. unfold zoom_other.
      destruct (shape image) as [|a [|b [|x l]]] eqn:Es; cbn [length] in L3; try lia.
      unfold zoom_on_pixel. cbn [shape]. rewrite Lz, Nat.eqb_refl. cbn [negb]. rewrite Ez. unfold pydiv.
      destruct (Req_EM_T step 0); [contradiction|]. destruct (Nat.eqb _ 0); reflexivity.
Qed.
Print Assumptions C59_other_ranks.

(** iterative_zoom_1d on data that are not 1-D: the same, for the default one-entry zoomshape *)
Theorem C59_other_ranks_1d :
  forall env fuel (data : arr num) mindiff m (rz : bool) step mm (rc : bool) d,
  length (shape data) <> 1%nat -> pos_shape (shape data) -> (forall i, inb (shape data) i -> isnan (get data i) = false) -> (0 < fuel)%nat ->
  gap_of mm (shape data) (fun i => nan0 (get data i)) d ->
  let result := iterative_zoom_1d env fuel data mindiff [m] rz step mm rc in
  (d <= mindiff -> rc = true -> result = Some (Raise UnboundLocalError)) /\
  (d <= mindiff -> rc = false -> rz = false -> result = Some (Ok (ZResult [0]))) /\
  (mindiff < d -> step <> 0 -> (0 <= m)%Z -> m <> 1%Z -> result = Some (Raise ValueError)).
Proof.
  intros env fuel data md m rz step mm rc d H1 P HN Hf G result. unfold result. rewrite zoom_rank_1d by auto.
  rewrite (proj2 (pos_shapeb_spec _) P), no_nan_has by auto. cbn [negb].
  assert (S := shows_flat (shape data) (fun i => nan0 (get data i)) P).
  match goal with |- context [zloop _ _ _ _ ?mid ?zm ?v _ _ ?off] => destruct (loop_first mm md step mid zm v (shape data) _ off fuel rz rc d S P G Hf) as [A B] end.
  split; [intros L ->; rewrite A; auto|]. split; [intros L -> ->; rewrite A; auto|].
  intros L Hst Hm Nm. apply (B L ValueError (fun c => (0 < length c)%nat)).
  { intros p Hp. apply in_map_iff in Hp. destruct Hp as [i [<- Hi]]. cbn [fst length]. lia. }
  intros c Hc. unfold zoom_other_1d. assert (L2 : (2 <= length (shape data))%nat).
  { destruct (shape data) as [|a [|b l]] eqn:Es; cbn [length] in *; try lia. exfalso.
    destruct G as [p [q [Hp [_ [Hq [D0 [Ed _]]]]]]]. destruct p, q; cbn [inb] in *; try contradiction. rewrite Rminus_diag_eq, Rabs_R0 in Ed by reflexivity. lra. }
  unfold zoom_on_pixel. cbn [shape]. cbn [length]. destruct (shape data) as [|a [|b l]]; cbn [length] in *; try lia. cbn [Nat.eqb negb bind].
  unfold wrong_outshape. cbn [length Nat.ltb Nat.leb]. destruct (Z.eqb_spec m 1) as [|_]; [contradiction|].
  destruct c as [|c0 c]; [cbn in Hc; lia|]. cbn [length Nat.ltb Nat.leb negb andb existsb]. destruct (Z.ltb_spec m 0); [lia|].
  cbn [orb]. destruct (Req_EM_T step 0); [contradiction|]. reflexivity.
Qed.
Print Assumptions C59_other_ranks_1d.

(** a bright pixel in a cube *)
Example C59_other_ranks_nonvacuous :
  let cube := Arr [2; 2; 2]%Z (fun i => match i with [1; 0; 1]%Z => Fin 7 | _ => Fin 4 end) in
  gap_of MMax (shape cube) (fun i => nan0 (get cube i)) 3 /\
  (forall env, iterative_zoom env 9 cube 1 [10; 10]%Z false 2 MMax true = Some (Raise ValueError)) /\
  (forall env, iterative_zoom env 9 cube 1 [4; 4; 4]%Z false 2 MMax true = Some (Raise NotImplementedError)) /\
  (forall env, iterative_zoom env 9 cube 3 [10; 10]%Z false 2 MMax false = Some (Ok (ZResult [0; 0; 0]))) /\
  (forall env, iterative_zoom_1d env 9 cube 1 [10]%Z false 2 MMax true = Some (Raise ValueError)).
Proof.
  intros cube.
  assert (V : forall i, nan0 (get cube i) = 7 \/ nan0 (get cube i) = 4).
  { intros i. unfold cube. cbn [get]. repeat (match goal with |- context [match ?x with _ => _ end] => destruct x end); cbn [nan0]; auto. }
  assert (G : gap_of MMax (shape cube) (fun i => nan0 (get cube i)) 3).
  { set (f := fun i => nan0 (get cube i)). assert (V' : forall r, f r = 7 \/ f r = 4) by exact V.
    assert (F1 : f [1; 0; 1]%Z = 7) by reflexivity. assert (F0 : f [0; 0; 0]%Z = 4) by reflexivity. clearbody f.
    exists [1; 0; 1]%Z, [0; 0; 0]%Z. rewrite F1, F0. cbn [sgn]. split; [cbn; lia|]. split.
    { intros r _. destruct (V' r) as [-> | ->]; lra. }
    split; [cbn; lia|]. split; [lra|].
    split; [rewrite Rabs_left; lra|]. intros r _ N. destruct (V' r) as [E|E]; rewrite E in *; [lra|]. rewrite Rabs_left; lra. }
  assert (P : pos_shape (shape cube)) by (repeat constructor; lia).
  assert (N : forall i, inb (shape cube) i -> isnan (get cube i) = false).
  { intros i _. unfold cube. cbn [get]. repeat (match goal with |- context [match ?x with _ => _ end] => destruct x end); reflexivity. }
  split; [exact G|].
  repeat split; intros env.
  - destruct (C59_other_ranks env 9 cube 1 [10; 10]%Z false 2 MMax true 3 ltac:(discriminate) P N ltac:(lia) G) as [_ [_ [_ H]]].
    destruct (H ltac:(lra) ltac:(cbn; lia) ltac:(lra) ltac:(intros m [<-|[<-|[]]]; lia)) as [A _]. apply A; [reflexivity|discriminate].
  - destruct (C59_other_ranks env 9 cube 1 [4; 4; 4]%Z false 2 MMax true 3 ltac:(discriminate) P N ltac:(lia) G) as [_ [_ [_ H]]].
    destruct (H ltac:(lra) ltac:(cbn; lia) ltac:(lra) ltac:(intros m [<-|[<-|[<-|[]]]]; lia)) as [_ A]. apply A. reflexivity.
  - destruct (C59_other_ranks env 9 cube 3 [10; 10]%Z false 2 MMax false 3 ltac:(discriminate) P N ltac:(lia) G) as [_ [H _]].
    apply H; [lra|reflexivity|reflexivity].
  - destruct (C59_other_ranks_1d env 9 cube 1 10 false 2 MMax true 3 ltac:(discriminate) P N ltac:(lia) G) as [_ [_ H]]. apply H; [lra|lra|lia|lia].
Qed.
