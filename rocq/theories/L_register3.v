(** The result of register_images for every input (lemmas for C51-C56) *)
From Coq Require Import ZArith Lia List Reals Lra Bool FunctionalExtensionality.
From Coquelicot Require Import Complex.
From Verif Require Import Base NDim DFT Kernel Num Py M_fast_ffts M_shift M_upsample Arg M_chi2 M_xcorr M_register
  Spec L_shift L_scale L_upsample Sum2 Spec2 Spec3 Spec4 L_chi2 L_chi2shift L_fshift L_xcorr P_chi2errors P_xcorr P_xcorr2 P_xcorr3
  L_register L_register2.
Import ListNotations.
Open Scope R_scope.

(** *** positions and shifts *)
Lemma unwrap_val n k : (0 <= n)%Z -> unwrap n k = if (n / 2 <? k)%Z then (k - n)%Z else k.
Proof.
  intros Hn. unfold unwrap. rewrite truncR_half by auto. destruct (Rlt_dec (IZR (n / 2)) (IZR k)) as [L|L].
  - apply lt_IZR in L. destruct (Z.ltb_spec (n / 2) k); [reflexivity|lia].
  - destruct (Z.ltb_spec (n / 2) k) as [G|G]; [|reflexivity]. exfalso. apply L. apply IZR_lt. auto.
Qed.
Lemma centred_range n d : (0 < n)%Z -> (- (n / 2) <= centred n d <= (n - 1) / 2)%Z.
Proof. intros Hn. unfold centred. assert (H := Z.mod_pos_bound (d + n / 2) n Hn). assert (G := half_sum n Hn). lia. Qed.
Lemma centred_mod n d : (0 < n)%Z -> ((d - centred n d) mod n = 0)%Z.
Proof.
  intros Hn. unfold centred. replace (d - ((d + n / 2) mod n - n / 2))%Z with ((d + n / 2) - (d + n / 2) mod n)%Z by lia.
  rewrite Zminus_mod_idemp_r, Z.sub_diag. apply Z.mod_0_l. lia.
Qed.
Lemma centred_unique n d t : (0 < n)%Z -> (- (n / 2) <= t <= (n - 1) / 2)%Z -> ((d - t) mod n = 0)%Z -> t = centred n d.
Proof.
  intros Hn Ht E. assert (C := centred_range n d Hn). assert (M := centred_mod n d Hn). assert (G := half_sum n Hn).
  assert (D : ((centred n d - t) mod n = 0)%Z).
  { replace (centred n d - t)%Z with ((d - t) - (d - centred n d))%Z by lia. rewrite Zminus_mod, E, M. apply Z.mod_0_l. lia. }
  assert (X := mod0_small n (centred n d - t) Hn ltac:(lia) D). lia.
Qed.
Lemma unwrap_range n k : (0 < n)%Z -> (0 <= k < n)%Z -> (- (n / 2) <= - unwrap n k <= (n - 1) / 2)%Z.
Proof. intros Hn Hk. rewrite unwrap_val by lia. assert (G := half_sum n Hn). assert (0 <= n / 2)%Z by (apply Z.div_pos; lia). assert (0 <= (n - 1) / 2)%Z by (apply Z.div_pos; lia). destruct (Z.ltb_spec (n / 2) k); lia. Qed.
Lemma unwrap_mod n k : (0 < n)%Z -> ((- k - - unwrap n k) mod n = 0)%Z.
Proof.
  intros Hn. rewrite unwrap_val by lia. destruct (Z.ltb_spec (n / 2) k).
  - replace (- k - - (k - n))%Z with (-1 * n)%Z by lia. apply Z.mod_mul. lia.
  - replace (- k - - k)%Z with 0%Z by lia. apply Z.mod_0_l. lia.
Qed.

(** a position of the first axis is left in by maxoff *)
Definition allowed (n : Z) (mo : option Z) (k : Z) : Prop := match mo with None => True | Some M => (k < M \/ n - M <= k)%Z end.
Lemma in_slice_spec n M k : (1 <= M)%Z -> (0 <= k < n)%Z -> in_slice n M (- M) k = true <-> (M <= k < n - M)%Z.
Proof.
  intros HM Hk. unfold in_slice, pyslice. rewrite andb_true_iff, Z.leb_le, Z.ltb_lt.
  destruct (Z.ltb_spec M 0); [lia|]. destruct (Z.ltb_spec (- M) 0); [|lia]. lia.
Qed.
Lemma masked_argmax m n mo h : (0 < m)%Z -> (0 < n)%Z -> match mo with None => True | Some M => (1 <= M)%Z end ->
  (forall i j, 0 <= h i j) ->
  let '(r, c) := argmax2 m n (maskR m n mo h) in
  (0 <= r < m)%Z /\ (0 <= c < n)%Z /\ allowed m mo r /\ allowed n mo c /\
  forall i j, (0 <= i < m)%Z -> (0 <= j < n)%Z -> allowed m mo i -> allowed n mo j -> h i j <= h r c.
Proof.
  intros Hm Hn HM Hh. assert (S := argmin2_spec m n (fun i j => - maskR m n mo h i j) Hm Hn).
  fold (argmax2 m n (maskR m n mo h)) in S. destruct (argmax2 m n (maskR m n mo h)) as [r c]. destruct S as [Hr [Hc [S1 S2]]]. cbn [fst snd] in *.
  split; [exact Hr|]. split; [exact Hc|]. destruct mo as [M|]; cbn [allowed maskR] in *.
  - assert (D : forall i j, (0 <= i < m)%Z -> (0 <= j < n)%Z ->
       (in_slice m M (- M) i || in_slice n M (- M) j)%bool = false <-> (i < M \/ m - M <= i)%Z /\ (j < M \/ n - M <= j)%Z).
    { intros i j Hi Hj. rewrite orb_false_iff, <- !not_true_iff_false, !in_slice_spec by auto. lia. }
    assert (A : (in_slice m M (- M) r || in_slice n M (- M) c)%bool = false).
    { destruct (in_slice m M (- M) r || in_slice n M (- M) c)%bool eqn:E; [|reflexivity]. exfalso.
      assert (Z0 : (in_slice m M (- M) 0 || in_slice n M (- M) 0)%bool = false) by (apply D; lia).
      specialize (S2 0%Z 0%Z ltac:(lia) ltac:(lia)). rewrite Z0 in S2. specialize (Hh 0%Z 0%Z).
      destruct (Z.eq_dec r 0) as [->|N1]; [destruct (Z.eq_dec c 0) as [->|N2]|].
      - rewrite E in Z0. discriminate.
      - specialize (S2 ltac:(lia)). lra.
      - specialize (S2 ltac:(lia)). lra. }
    rewrite A in S1. apply D in A; auto. destruct A as [A1 A2]. split; [exact A1|]. split; [exact A2|].
    intros i j Hi Hj Ai Aj. specialize (S1 i j Hi Hj). rewrite (proj2 (D i j Hi Hj)) in S1 by auto. lra.
  - split; [exact I|]. split; [exact I|]. intros i j Hi Hj _ _. specialize (S1 i j Hi Hj). lra.
Qed.

Lemma limit_zero m n cc : limit_cc m n (Some 0%Z) cc = limit_cc m n None cc.
Proof.
  unfold limit_cc. apply functional_extensionality. intros i. apply functional_extensionality. intros j.
  assert (E : forall n k, in_slice n 0 (- 0) k = false).
  { intros a k. unfold in_slice, pyslice. change (- 0)%Z with 0%Z. destruct (Z.ltb_spec 0 0); [lia|].
    destruct (Z.leb_spec (Z.min a 0) k); [|reflexivity]. apply Z.ltb_ge. lia. }
  rewrite !E. reflexivity.
Qed.


Lemma allowed_within n mo s : (0 < n)%Z -> within mo s -> allowed n mo ((- s) mod n)%Z.
Proof.
  intros Hn. destruct mo as [M|]; cbn [within allowed]; auto. intros Hs.
  destruct (Z_lt_le_dec n M) as [L|L]; [left; assert (H := Z.mod_pos_bound (- s) n Hn); lia|].
  destruct (Z_le_gt_dec s 0) as [G|G].
  - destruct (Z_lt_le_dec (- s) n); [left; rewrite Z.mod_small by lia; lia|lia].
  - right. assert (E : ((- s) mod n = n - s \/ s = n)%Z).
    { destruct (Z.eq_dec s n) as [|N]; [auto|left]. rewrite <- (Z.mod_add (- s) 1 n) by lia. rewrite Z.mod_small by lia. lia. }
    destruct E as [->|E]; [lia|]. subst s. assert (H := Z.mod_pos_bound (- n) n Hn). lia.
Qed.
Lemma allowed_bounds n mo k : (0 < n)%Z -> (0 <= k < n)%Z -> allowed n mo k ->
  match mo with None => True | Some M => (- M <= - unwrap n k <= M)%Z /\ (2 * M <> n -> - M < - unwrap n k)%Z end.
Proof.
  intros Hn Hk. destruct mo as [M|]; [|auto]. cbn [allowed]. rewrite unwrap_val by lia.
  destruct (Z.ltb_spec (n / 2) k) as [L|L]; intros [A|A]; Z.to_euclidean_division_equations; lia.
Qed.

Lemma mag_nonneg ny nx f g r c : 0 <= mag ny nx f g r c.
Proof. apply Cmod_ge_0. Qed.

(** whole-period differences do not change the correlation *)
Lemma whole_period_int n s t (q : Z) : (0 < n)%Z -> (0 < q)%Z -> ((s - t) mod (n * q) = 0)%Z -> whole_period n (IZR s / IZR q - IZR t / IZR q).
Proof.
  intros Hn Hq E. right. apply Z.mod_divide in E; [|nia]. destruct E as [k E]. exists k.
  assert (IZR s - IZR t = IZR k * IZR n * IZR q) by (rewrite <- minus_IZR, E, !mult_IZR; ring).
  replace (IZR s / IZR q - IZR t / IZR q) with ((IZR s - IZR t) / IZR q) by (unfold Rdiv; ring). rewrite H. field. apply IZR_neq0; lia.
Qed.

(** shifts reported on a whole-pixel (q = 1) or half-pixel (q = 2) grid *)
Lemma grid_argmax q ny nx f g mo : (0 < ny)%Z -> (0 < nx)%Z -> (0 < q)%Z -> match mo with None => True | Some M => (1 <= M)%Z end ->
  let '(r, c) := argmax2 (ny * q) (nx * q) (maskR (ny * q) (nx * q) mo (fun i j => mag ny nx f g (IZR i / IZR q) (IZR j / IZR q))) in
  let a := (- unwrap (ny * q) r)%Z in let b := (- unwrap (nx * q) c)%Z in
  (- (ny * q / 2) <= a <= (ny * q - 1) / 2)%Z /\ (- (nx * q / 2) <= b <= (nx * q - 1) / 2)%Z /\
  match mo with None => True | Some M => (- M <= a <= M /\ - M <= b <= M /\ (2 * M <> ny * q -> - M < a) /\ (2 * M <> nx * q -> - M < b))%Z end /\
  forall s t, within mo s -> within mo t ->
    Cmod (rcc ny nx f g (IZR s / IZR q) (IZR t / IZR q)) <= Cmod (rcc ny nx f g (IZR a / IZR q) (IZR b / IZR q)).
Proof.
  intros Hy Hx Hq HM. assert (Hyq : (0 < ny * q)%Z) by nia. assert (Hxq : (0 < nx * q)%Z) by nia.
  assert (S := masked_argmax (ny * q) (nx * q) mo (fun i j => mag ny nx f g (IZR i / IZR q) (IZR j / IZR q)) Hyq Hxq HM (fun i j => mag_nonneg _ _ _ _ _ _)).
  destruct (argmax2 _ _ _) as [r c]. destruct S as [Hr [Hc [Ar [Ac S]]]]. cbv zeta.
  split; [apply unwrap_range; auto|]. split; [apply unwrap_range; auto|]. split.
  - assert (B1 := allowed_bounds _ _ _ Hyq Hr Ar). assert (B2 := allowed_bounds _ _ _ Hxq Hc Ac). destruct mo; [tauto|auto].
  - intros s t Hs Ht.
    specialize (S ((- s) mod (ny * q))%Z ((- t) mod (nx * q))%Z (Z.mod_pos_bound _ _ Hyq) (Z.mod_pos_bound _ _ Hxq) (allowed_within _ _ _ Hyq Hs) (allowed_within _ _ _ Hxq Ht)).
    unfold mag in S.
    assert (P : forall n d e, (0 < n)%Z -> ((- d - e) mod (n * q) = 0)%Z -> whole_period n (- (IZR e / IZR q) - IZR d / IZR q)).
    { intros n d e Hn E. assert (W := whole_period_int n (- e) d q Hn Hq). rewrite opp_IZR in W. unfold Rdiv in W |- *. rewrite <- Ropp_mult_distr_l in W. apply W.
      replace (- e - d)%Z with (- d - e)%Z by lia. exact E. }
    rewrite (rcc_period ny nx f g (- (IZR ((- s) mod (ny * q)) / IZR q)) (- (IZR ((- t) mod (nx * q)) / IZR q)) (IZR s / IZR q) (IZR t / IZR q)) in S; auto.
    2,3: apply P; auto; rewrite Zminus_mod_idemp_r, Z.sub_diag; apply Z.mod_0_l; lia.
    rewrite (rcc_period ny nx f g (- (IZR r / IZR q)) (- (IZR c / IZR q)) (IZR (- unwrap (ny * q) r) / IZR q) (IZR (- unwrap (nx * q) c) / IZR q)) in S; auto.
    1,2: apply P; auto. 
    + assert (E := unwrap_mod (ny * q) r Hyq). replace (- - unwrap (ny * q) r - r)%Z with ((- r - - unwrap (ny * q) r) )%Z by lia. exact E.
    + assert (E := unwrap_mod (nx * q) c Hxq). replace (- - unwrap (nx * q) c - c)%Z with ((- c - - unwrap (nx * q) c) )%Z by lia. exact E.
Qed.

(** *** the refinement *)
Lemma roundR_unique x z : Rabs (x - IZR z) < 1 / 2 \/ (Rabs (x - IZR z) = 1 / 2 /\ Z.even z = true) -> roundR x = z.
Proof.
  intros [H|[H E]]; [apply roundR_near; exact H|].
  unfold Rabs in H. destruct (Rcase_abs (x - IZR z)).
  - assert (F : floorR x = (z - 1)%Z) by (apply floorR_unique; rewrite minus_IZR; lra). unfold roundR. rewrite F, minus_IZR.
    destruct (Rlt_dec (x - (IZR z - 1)) (1 / 2)); [lra|]. destruct (Rlt_dec (1 / 2) (x - (IZR z - 1))); [lra|].
    rewrite Z.sub_1_r, Z.even_pred, <- Z.negb_even, E. cbn [negb]. lia.
  - assert (F : floorR x = z) by (apply floorR_unique; lra). unfold roundR. rewrite F.
    destruct (Rlt_dec (x - IZR z) (1 / 2)); [reflexivity|]. destruct (Rlt_dec (1 / 2) (x - IZR z)); [lra|]. rewrite E. reflexivity.
Qed.
Lemma roundR_even x : Rabs (x - IZR (roundR x)) < 1 / 2 \/ (Rabs (x - IZR (roundR x)) = 1 / 2 /\ Z.even (roundR x) = true).
Proof.
  unfold roundR. assert (H := floorR_spec x). set (f := floorR x) in *.
  destruct (Rlt_dec (x - IZR f) (1 / 2)); [left; apply Rabs_def1; lra|].
  destruct (Rlt_dec (1 / 2) (x - IZR f)); [left; apply Rabs_def1; rewrite plus_IZR; lra|].
  destruct (Z.even f) eqn:E; right.
  - split; [|exact E]. rewrite Rabs_right; lra.
  - split; [rewrite plus_IZR, Rabs_left; lra|]. rewrite Z.add_1_r, Z.even_succ, <- Z.negb_even, E. reflexivity.
Qed.
Lemma roundR_opp x : roundR (- x) = (- roundR x)%Z.
Proof.
  apply roundR_unique. rewrite opp_IZR, Z.even_opp. replace (- x - - IZR (roundR x)) with (- (x - IZR (roundR x))) by ring.
  rewrite Rabs_Ropp. apply roundR_even.
Qed.


Lemma window_near u c a : 2 < u -> fine_window u c a -> Rabs (IZR a / u - c) <= 3 / 4 + 1 / u.
Proof.
  intros Hu [W1 W2]. assert (Rd := roundR_spec (c * u)). set (R0 := roundR (c * u)) in *.
  assert (Hc := ceilR_spec (u * (3 / 2))). set (L := ceilR (u * (3 / 2))) in *.
  assert (B : (- L <= 2 * (a - R0) <= L)%Z).
  { assert (H1 := Z.mul_div_le L 2 ltac:(lia)). assert (H2 := Z.mul_div_le (L - 1) 2 ltac:(lia)). lia. }
  assert (B1 : IZR (- L) <= IZR (2 * (a - R0))) by (apply IZR_le; lia). assert (B2 : IZR (2 * (a - R0)) <= IZR L) by (apply IZR_le; lia).
  rewrite opp_IZR in B1. rewrite mult_IZR, minus_IZR in B1, B2.
  assert (Hi : 0 < / u) by (apply Rinv_0_lt_compat; lra).
  replace (IZR a / u - c) with (/ u * (IZR a - c * u)) by (field; lra). rewrite Rabs_mult, (Rabs_right (/ u)) by lra.
  replace (3 / 4 + 1 / u) with (/ u * (u * (3 / 4) + 1)) by (field; lra). apply Rmult_le_compat_l; [lra|].
  apply Rabs_le. unfold Rabs in Rd; destruct (Rcase_abs (IZR R0 - c * u)); lra.
Qed.
Lemma window_centre u c : 2 < u -> fine_window u c (roundR (c * u)).
Proof.
  intros Hu. unfold fine_window. rewrite Z.sub_diag. assert (H := fine_size_pos u Hu). unfold fine_size in H.
  assert (0 <= (ceilR (u * (3 / 2)) - 1) / 2)%Z by (apply Z.div_pos; lia). assert (0 <= ceilR (u * (3 / 2)) / 2)%Z by (apply Z.div_pos; lia). lia.
Qed.

Lemma refine_spec ny nx f g u a b : 2 < u ->
  let '(r, c) := refine (mag ny nx f g) u (- a, - b)%Z in
  exists A B : Z, r = - (IZR A / u) /\ c = - (IZR B / u) /\ fine_window u (IZR a / 2) A /\ fine_window u (IZR b / 2) B /\
    forall s t, fine_window u (IZR a / 2) s -> fine_window u (IZR b / 2) t -> Cmod (rcc ny nx f g (IZR s / u) (IZR t / u)) <= Cmod (rcc ny nx f g (IZR A / u) (IZR B / u)).
Proof.
  intros Hu. unfold refine. cbn [fst snd].
  assert (Eo : forall z, roundR (IZR (- z) / 2 * u) = (- roundR (IZR z / 2 * u))%Z) by (intros z; rewrite <- roundR_opp; f_equal; rewrite opp_IZR; unfold Rdiv; ring).
  rewrite !Eo. set (R0 := roundR (IZR a / 2 * u)). set (C0 := roundR (IZR b / 2 * u)).
  assert (Lp := fine_size_pos u Hu). set (L := fine_size u) in *.
  assert (S := argmin2_spec L L (fun i j => - mag ny nx f g (IZR (- R0 + i - L / 2) / u) (IZR (- C0 + j - L / 2) / u)) ltac:(lia) ltac:(lia)).
  fold (argmax2 L L (fun i j => mag ny nx f g (IZR (- R0 + i - L / 2) / u) (IZR (- C0 + j - L / 2) / u))) in S.
  destruct (argmax2 L L _) as [i j]. destruct S as [Hi [Hj [S _]]]. cbn [fst snd] in *.
  assert (Ht := half_sum L ltac:(lia)).
  exists (R0 - i + L / 2)%Z, (C0 - j + L / 2)%Z.
  assert (En : forall Q k, IZR (- Q + k - L / 2) / u = - (IZR (Q - k + L / 2) / u)).
  { intros Q k. replace (- Q + k - L / 2)%Z with (- (Q - k + L / 2))%Z by lia. rewrite opp_IZR. unfold Rdiv. ring. }
  split; [apply En|]. split; [apply En|]. split; [unfold fine_window; fold R0 (fine_size u) L; lia|].
  split; [unfold fine_window; fold C0 (fine_size u) L; lia|].
  intros s t Ws Wt. unfold fine_window in Ws, Wt. fold R0 C0 (fine_size u) L in Ws, Wt.
  specialize (S (R0 - s + L / 2)%Z (C0 - t + L / 2)%Z ltac:(lia) ltac:(lia)). unfold mag in S. rewrite !En, !Ropp_involutive in S.
  replace (R0 - (R0 - s + L / 2) + L / 2)%Z with s in S by lia. replace (C0 - (C0 - t + L / 2) + L / 2)%Z with t in S by lia. lra.
Qed.

(** *** the result, for every input *)
Definition nums (l : list R) : list regval := map RgNum l.

Lemma register_whole hf im1 im2 re zm mo nt np ny nx :
  shape im1 = [ny; nx] -> shape im2 = [ny; nx] -> (0 < ny)%Z -> (0 < nx)%Z -> mo_ok mo ->
  let f := prep zm im1 ny nx in let g := prep zm im2 ny nx in
  exists ty tx : Z, register_images hf im1 im2 1 false re zm mo nt np = Ok (nums [IZR tx; IZR ty] ++ err_part re 1) /\
    (- (ny / 2) <= ty <= (ny - 1) / 2)%Z /\ (- (nx / 2) <= tx <= (nx - 1) / 2)%Z /\ bounded mo ny ty /\ bounded mo nx tx /\
    forall s t, within mo s -> within mo t -> Rabs (ccf ny nx f g s t) <= Rabs (ccf ny nx f g ty tx).
Proof.
  intros H1 H2 Hy Hx HM f g.
  assert (E := register_eq hf im1 im2 1 false re zm mo nt np ny nx H1 H2 Hy Hx ltac:(lra) ltac:(discriminate)). cbv zeta in E. fold f g in E.
  unfold regtail in E. destruct (Req_EM_T 1 1) as [_|N]; [|lra].
  assert (G := grid_argmax 1 ny nx f g mo Hy Hx ltac:(lia) HM). rewrite !Z.mul_1_r in G.
  assert (EA : argmax2 ny nx (maskR ny nx mo (fun i j => mag ny nx f g (IZR i / 1) (IZR j / 1))) = argmax2 ny nx (maskR ny nx mo (fun i j => mag ny nx f g (IZR i) (IZR j)))).
  { apply argmax2_ext'; auto. intros i j Hi Hj. apply maskR_ext; auto. intros. unfold Rdiv. rewrite Rinv_1, !Rmult_1_r. reflexivity. }
  rewrite EA in G. destruct (argmax2 ny nx _) as [r c]. cbv zeta in G. destruct G as [G1 [G2 [G3 G4]]].
  destruct E as [tail [E [T _]]]. rewrite (T eq_refl), app_nil_r in E.
  exists (- unwrap ny r)%Z, (- unwrap nx c)%Z. rewrite E. split; [rewrite !opp_IZR; reflexivity|]. split; [exact G1|]. split; [exact G2|].
  split; [destruct mo; cbn [bounded]; tauto|]. split; [destruct mo; cbn [bounded]; tauto|].
  intros s t Hs Ht. specialize (G4 s t Hs Ht). unfold Rdiv in G4. rewrite Rinv_1, !Rmult_1_r, !rcc_int, !Cmod_R in G4 by auto. exact G4.
Qed.

Lemma register_half hf im1 im2 u re zm mo nt np ny nx :
  shape im1 = [ny; nx] -> shape im2 = [ny; nx] -> (0 < ny)%Z -> (0 < nx)%Z -> mo_ok mo -> u <> 0 -> u <> 1 -> u <= 2 ->
  let f := prep zm im1 ny nx in let g := prep zm im2 ny nx in
  exists a b : Z, register_images hf im1 im2 u false re zm mo nt np =
      Ok (nums [if (nx =? 1)%Z then 0 else IZR b / 2; if (ny =? 1)%Z then 0 else IZR a / 2] ++ err_part re u) /\
    (- ny <= a < ny)%Z /\ (- nx <= b < nx)%Z /\ bounded mo (ny * 2) a /\ bounded mo (nx * 2) b /\
    forall s t, within mo s -> within mo t -> Cmod (rcc ny nx f g (IZR s / 2) (IZR t / 2)) <= Cmod (rcc ny nx f g (IZR a / 2) (IZR b / 2)).
Proof.
  intros H1 H2 Hy Hx HM U0 U1 U2 f g.
  assert (E := register_eq hf im1 im2 u false re zm mo nt np ny nx H1 H2 Hy Hx U0 ltac:(discriminate)). cbv zeta in E. fold f g in E.
  unfold regtail in E. destruct (Req_EM_T u 1) as [N|_]; [contradiction|]. destruct (Rlt_dec 2 u) as [N|_]; [lra|].
  assert (G := grid_argmax 2 ny nx f g mo Hy Hx ltac:(lia) HM). unfold coarse in E.
  destruct (argmax2 (ny * 2) (nx * 2) _) as [r c]. cbv zeta in G. destruct G as [G1 [G2 [G3 G4]]]. cbn [fst snd] in E.
  destruct E as [tail [E [T _]]]. rewrite (T eq_refl), app_nil_r in E.
  exists (- unwrap (ny * 2) r)%Z, (- unwrap (nx * 2) c)%Z. split.
  { rewrite E. cbn [nums map app]. f_equal. f_equal; [|f_equal]; f_equal; [destruct (nx =? 1)%Z|destruct (ny =? 1)%Z]; rewrite ?opp_IZR; unfold Rdiv; ring. }
  rewrite Z.div_mul in G1, G2 by lia.
  assert (B : forall n, ((n * 2 - 1) / 2 = n - 1)%Z) by (intros; Z.to_euclidean_division_equations; lia). rewrite B in G1, G2.
  split; [lia|]. split; [lia|]. split; [destruct mo; cbn [bounded]; tauto|]. split; [destruct mo; cbn [bounded]; tauto|]. exact G4.
Qed.

Lemma register_fine hf im1 im2 u re zm mo nt np ny nx :
  shape im1 = [ny; nx] -> shape im2 = [ny; nx] -> (0 < ny)%Z -> (0 < nx)%Z -> mo_ok mo -> 2 < u ->
  let f := prep zm im1 ny nx in let g := prep zm im2 ny nx in
  exists a b A B : Z, register_images hf im1 im2 u false re zm mo nt np =
      Ok (nums [if (nx =? 1)%Z then 0 else IZR B / u; if (ny =? 1)%Z then 0 else IZR A / u] ++ err_part re u) /\
    (- ny <= a < ny)%Z /\ (- nx <= b < nx)%Z /\ bounded mo (ny * 2) a /\ bounded mo (nx * 2) b /\
    (forall s t, within mo s -> within mo t -> Cmod (rcc ny nx f g (IZR s / 2) (IZR t / 2)) <= Cmod (rcc ny nx f g (IZR a / 2) (IZR b / 2))) /\
    fine_window u (IZR a / 2) A /\ fine_window u (IZR b / 2) B /\
    forall s t, fine_window u (IZR a / 2) s -> fine_window u (IZR b / 2) t -> Cmod (rcc ny nx f g (IZR s / u) (IZR t / u)) <= Cmod (rcc ny nx f g (IZR A / u) (IZR B / u)).
Proof.
  intros H1 H2 Hy Hx HM U2 f g.
  assert (E := register_eq hf im1 im2 u false re zm mo nt np ny nx H1 H2 Hy Hx ltac:(lra) ltac:(discriminate)). cbv zeta in E. fold f g in E.
  unfold regtail in E. destruct (Req_EM_T u 1) as [N|_]; [lra|]. destruct (Rlt_dec 2 u) as [_|N]; [|lra].
  assert (G := grid_argmax 2 ny nx f g mo Hy Hx ltac:(lia) HM). unfold coarse in E.
  destruct (argmax2 (ny * 2) (nx * 2) _) as [r c]. cbv zeta in G. destruct G as [G1 [G2 [G3 G4]]].
  exists (- unwrap (ny * 2) r)%Z, (- unwrap (nx * 2) c)%Z.
  assert (F := refine_spec ny nx f g u (- unwrap (ny * 2) r) (- unwrap (nx * 2) c) U2). rewrite !Z.opp_involutive in F.
  destruct (refine _ _ _) as [r' c']. destruct F as [A [B [-> [-> F]]]]. cbn [fst snd] in E.
  destruct E as [tail [E [T _]]]. rewrite (T eq_refl), app_nil_r in E. exists A, B. split.
  { rewrite E. cbn [nums map app]. f_equal. f_equal; [|f_equal]; f_equal; [destruct (nx =? 1)%Z|destruct (ny =? 1)%Z]; ring. }
  rewrite Z.div_mul in G1, G2 by lia.
  assert (B' : forall n, ((n * 2 - 1) / 2 = n - 1)%Z) by (intros; Z.to_euclidean_division_equations; lia). rewrite B' in G1, G2.
  split; [lia|]. split; [lia|]. split; [destruct mo; cbn [bounded]; tauto|]. split; [destruct mo; cbn [bounded]; tauto|]. split; [exact G4|exact F].
Qed.
