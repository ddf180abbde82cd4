(** Lemmas about the model of convolve_nd.py *)
From Coq Require Import ZArith Lia List Reals Lra Bool.
From Coquelicot Require Import Complex.
From Verif Require Import Base NDim DFT Kernel Py M_fast_ffts M_shift M_convolve Spec L_shift.
Import ListNotations.
Open Scope R_scope.

(** ** windows *)
Lemma sumC_window N n s (f : Z -> C) : (0 <= s)%Z -> (0 <= n)%Z -> (s + n <= N)%Z ->
  sumC N (fun W => if (0 <=? W - s)%Z && (W - s <? n)%Z then f (W - s)%Z else RtoC 0) = sumC n f.
Proof.
  intros Hs Hn HN. replace N with (s + (n + (N - s - n)))%Z by lia.
  rewrite sumC_split by lia. rewrite (sumC_split n) by lia.
  rewrite (sumC_const0 s).
  2:{ intros i Hi. destruct (Z.leb_spec 0 (i - s)); [lia|reflexivity]. }
  rewrite (sumC_const0 (N - s - n)).
  2:{ intros i Hi. destruct (Z.ltb_spec (s + (n + i) - s) n); [lia|]. rewrite andb_false_r. reflexivity. }
  rewrite Cplus_0_l, Cplus_0_r. apply sumC_ext. intros i Hi.
  replace (s + i - s)%Z with i by ring. destruct (Z.leb_spec 0 i); [|lia]. destruct (Z.ltb_spec i n); [|lia]. reflexivity.
Qed.

(** [fits s n N]: the window of shape n starting at s lies inside N *)
Fixpoint fits (s n N : list Z) : Prop :=
  match s, n, N with
  | [], [], [] => True
  | s0 :: s', n0 :: n', M0 :: N' => (0 <= s0 /\ 0 <= n0 /\ s0 + n0 <= M0)%Z /\ fits s' n' N'
  | _, _, _ => False
  end.
Lemma fits_len s n N : fits s n N -> length s = length N /\ length n = length N.
Proof.
  revert n N; induction s as [|s0 s IH]; intros [|n0 n] [|M0 N]; simpl; try tauto.
  intros [_ H]. apply IH in H. lia.
Qed.

Lemma fits_addl s n N x : fits s n N -> inb n x -> inb N (addl x s).
Proof.
  revert n N x; induction s as [|s0 s IH]; intros [|n0 n] [|M0 N] [|x0 x]; simpl; try tauto.
  intros [H3 H4] [H1 H2]. split; [lia|]. apply (IH n N x); auto.
Qed.

Lemma sumNC_window s n N (f : list Z -> C) : fits s n N ->
  sumNC N (fun W => if inbb n (subl W s) then f (subl W s) else RtoC 0) = sumNC n f.
Proof.
  revert n N f; induction s as [|s0 s IH]; intros [|n0 n] [|M0 N] f H; simpl in H; try tauto.
  destruct H as [[H1 [H2 H3]] H]. rewrite !sumNC_cons.
  rewrite <- (sumC_window M0 n0 s0) by auto. apply sumC_ext. intros W HW.
  destruct ((0 <=? W - s0)%Z && (W - s0 <? n0)%Z) eqn:E.
  - rewrite <- (IH n N) by auto. apply sumNC_ext. intros l Hl. unfold subl at 1 2; simpl. fold (subl l s).
    change (zipw Z.sub l s) with (subl l s). rewrite E. reflexivity.
  - apply sumNC_const0. intros l Hl. unfold subl at 1; simpl. rewrite E. reflexivity.
Qed.

(** ** the padded shapes *)
Lemma half_mono a b : (a <= b)%Z -> (a / 2 <= b / 2)%Z.
Proof. intros H. apply Z.div_le_mono; lia. Qed.
Lemma slice_start_eq N n : slice_start N n = (N / 2 - n / 2)%Z.
Proof. unfold slice_start. Z.to_euclidean_division_equations. lia. Qed.
Lemma slice_start_fits N n : (0 <= n <= N)%Z -> (0 <= slice_start N n /\ slice_start N n + n <= N)%Z.
Proof. intros H. rewrite slice_start_eq. Z.to_euclidean_division_equations. lia. Qed.

Lemma Forall2_fits n N : Forall2 (fun a b => (0 <= a <= b)%Z) n N -> fits (starts N n) n N.
Proof.
  induction 1 as [|a b n N H HF IH]; simpl; auto. split; auto.
  assert (G := slice_start_fits b a H). lia.
Qed.

(** ** circular convolution with a centred kernel *)
Lemma modl_sub_modl N x y : pos_shape N -> length x = length N -> length y = length N ->
  modl N (subl x (modl N y)) = modl N (subl x y).
Proof.
  intros Hp. revert x y. induction N as [|n N IH]; intros [|x xs] [|y ys] H1 H2; simpl in *; try discriminate; auto.
  apply pos_shape_cons in Hp. destruct Hp as [Hn Hp]. unfold modl, subl in *. simpl. rewrite Zminus_mod_idemp_r. f_equal. apply IH; auto.
Qed.
Lemma modl_add_modl N x y : pos_shape N -> length x = length N -> length y = length N ->
  modl N (addl (modl N x) y) = modl N (addl x y).
Proof.
  intros Hp. revert x y. induction N as [|n N IH]; intros [|x xs] [|y ys] H1 H2; simpl in *; try discriminate; auto.
  apply pos_shape_cons in Hp. destruct Hp as [Hn Hp]. unfold modl, addl in *. simpl. rewrite Zplus_mod_idemp_l. f_equal. apply IH; auto.
Qed.

Definition halfl (l : list Z) : list Z := map (fun n => (n / 2)%Z) l.

Lemma idx_kernel N X W : pos_shape N -> length X = length N -> length W = length N ->
  modl N (addl (modl N (subl X (modl N (subl (addl X (halfl N)) W)))) (halfl N)) = modl N W.
Proof.
  intros Hp. revert X W. induction N as [|n N IH]; intros [|x X] [|w W] H1 H2; simpl in *; try discriminate; auto.
  apply pos_shape_cons in Hp. destruct Hp as [Hn Hp]. unfold modl, addl, subl, halfl in *. simpl. f_equal.
  - rewrite Zminus_mod_idemp_r, Zplus_mod_idemp_l. f_equal. ring.
  - apply IH; auto.
Qed.
(** index of the pixel of the padded image that kernel pixel k = W - start picks for output X *)
Lemma idx_image N ksh X W : length ksh = length N -> length X = length N -> length W = length N ->
  subl (addl X (halfl N)) W = subl X (subl (subl W (starts N ksh)) (halfl ksh)).
Proof.
  revert ksh X W. induction N as [|n N IH]; intros [|q ksh] [|x X] [|w W] H1 H2 H3; simpl in *; try discriminate; auto.
  unfold addl, subl, halfl, starts in *. simpl. f_equal; [rewrite slice_start_eq; lia|]. apply IH; lia.
Qed.

Lemma conv_core N ksh (big kern : list Z -> C) X :
  pos_shape N -> fits (starts N ksh) ksh N -> inb N X ->
  idft N (fun k => Cmult (dft N big k) (dft N (ifftshiftN N (embed N ksh kern (RtoC 0))) k)) X =
  sumNC ksh (fun k => Cmult (kern k) (big (modl N (subl X (subl k (halfl ksh)))))).
Proof.
  intros Hp Hf HX. assert (HlX := inb_length _ _ HX). destruct (fits_len _ _ _ Hf) as [Hl1 Hl2].
  assert (Hlh : length (halfl N) = length N) by (unfold halfl; apply map_length).
  rewrite idft_dft_mul by auto.
  rewrite <- (sumNC_mod_refl N (fun y => Cmult (big y) (ifftshiftN N (embed N ksh kern (RtoC 0)) (modl N (subl X y)))) (addl X (halfl N)))
    by (auto; rewrite addl_length; lia).
  rewrite <- (sumNC_window (starts N ksh) ksh N (fun k => Cmult (kern k) (big (modl N (subl X (subl k (halfl ksh))))))) by auto.
  apply sumNC_ext. intros W HW. assert (HlW := inb_length _ _ HW).
  unfold ifftshiftN. change (map (fun n : Z => (n / 2)%Z) N) with (halfl N).
  rewrite idx_kernel by auto. rewrite (modl_small N W) by auto. rewrite (idx_image N ksh) by auto.
  unfold embed. destruct (inbb ksh (subl W (starts N ksh))); ring.
Qed.

(** ** shapes used by convolvend are large enough *)
Lemma pow2ceil_ge m : (0 < m)%Z -> (m <= pow2ceil m)%Z.
Proof.
  intros H. unfold pow2ceil. destruct (Z.leb_spec m 0); [lia|].
  destruct (Z.eq_dec m 1) as [->|]; [simpl; lia|]. assert (G := Z.log2_up_spec m). lia.
Qed.
Lemma maxl_ge l x : In x l -> (x <= maxl l)%Z.
Proof. induction l as [|y l IH]; simpl; [tauto|]. intros [->|H]; [lia|]. specialize (IH H). lia. Qed.

(** per-axis facts about newshape *)
Definition shapes_ok (ash ksh : list Z) : Prop := pos_shape ash /\ pos_shape ksh /\ length ash = length ksh.

Lemma Forall2_const_map (f : Z -> Z -> Prop) (l : list Z) (g : Z -> Z) : Forall (fun x => f x (g x)) l -> Forall2 f l (map g l).
Proof. induction 1; simpl; constructor; auto. Qed.

Lemma maxl_addl_l ash ksh a : pos_shape ksh -> length ash = length ksh -> In a ash -> (a <= maxl (addl ash ksh))%Z.
Proof.
  revert ksh. induction ash as [|x ash IH]; intros [|y ksh] Hk Hl Hin; simpl in *; try tauto; try discriminate.
  apply pos_shape_cons in Hk. destruct Hin as [->|Hin]; [lia|]. specialize (IH ksh (proj2 Hk) ltac:(lia) Hin). unfold addl in IH. lia.
Qed.
Lemma maxl_addl_r ash ksh a : pos_shape ash -> length ash = length ksh -> In a ksh -> (a <= maxl (addl ash ksh))%Z.
Proof.
  revert ksh. induction ash as [|x ash IH]; intros [|y ksh] Hk Hl Hin; simpl in *; try tauto; try discriminate.
  apply pos_shape_cons in Hk. destruct Hin as [->|Hin]; [lia|]. specialize (IH ksh (proj2 Hk) ltac:(lia) Hin). unfold addl in IH. lia.
Qed.
Lemma Forall2_const (P : Z -> Z -> Prop) (l m : list Z) (v : Z) : length l = length m -> (forall x, In x l -> P x v) -> Forall2 P l (map (fun _ => v) m).
Proof.
  revert m. induction l as [|x l IH]; intros [|y m] H Hv; simpl in *; try discriminate; constructor; [apply Hv; auto|].
  apply IH; [lia|]. intros z Hz. apply Hv; auto.
Qed.

Lemma newshape_ge_array fp pp ash ksh : shapes_ok ash ksh ->
  Forall2 (fun a N => (0 <= a <= N)%Z) ash (newshape fp pp ash ksh).
Proof.
  intros [Ha [Hk Hl]]. unfold newshape. destruct fp.
  - apply Forall2_const; auto. intros a Hin.
    assert (0 < a)%Z by (unfold pos_shape in Ha; rewrite Forall_forall in Ha; auto). split; [lia|].
    destruct pp.
    + assert (G := maxl_addl_l ash ksh a Hk Hl Hin). assert (G2 := pow2ceil_ge (maxl (addl ash ksh))). lia.
    + assert (G : (a <= maxl (ash ++ ksh))%Z) by (apply maxl_ge, in_or_app; auto). assert (G2 := pow2ceil_ge (maxl (ash ++ ksh))). lia.
  - destruct pp; revert ksh Hk Hl; induction ash as [|x ash IH]; intros [|y ksh] Hk Hl; simpl in *; try discriminate;
    constructor; apply pos_shape_cons in Ha, Hk; try lia; apply IH; try tauto; lia.
Qed.

Lemma newshape_ge_kernel fp pp ash ksh : shapes_ok ash ksh ->
  Forall2 (fun a N => (0 <= a <= N)%Z) ksh (newshape fp pp ash ksh).
Proof.
  intros [Ha [Hk Hl]]. unfold newshape. destruct fp.
  - apply Forall2_const; auto. intros a Hin.
    assert (0 < a)%Z by (unfold pos_shape in Hk; rewrite Forall_forall in Hk; auto). split; [lia|].
    destruct pp.
    + assert (G := maxl_addl_r ash ksh a Ha Hl Hin). assert (G2 := pow2ceil_ge (maxl (addl ash ksh))). lia.
    + assert (G : (a <= maxl (ash ++ ksh))%Z) by (apply maxl_ge, in_or_app; auto). assert (G2 := pow2ceil_ge (maxl (ash ++ ksh))). lia.
  - destruct pp; revert ksh Hk Hl; induction ash as [|x ash IH]; intros [|y ksh] Hk Hl; simpl in *; try discriminate;
    constructor; apply pos_shape_cons in Ha, Hk; try lia; apply IH; try tauto; lia.
Qed.

(** with psf_pad every axis is at least array + kernel long *)
Lemma newshape_psf fp ash ksh : shapes_ok ash ksh ->
  Forall2 (fun s N => (s <= N)%Z) (addl ash ksh) (newshape fp true ash ksh).
Proof.
  intros [Ha [Hk Hl]]. unfold newshape. destruct fp.
  - set (v := pow2ceil _).
    assert (Hv : forall y, In y (addl ash ksh) -> (y <= v)%Z).
    { intros y Hy. assert (G := maxl_ge _ _ Hy). destruct (Z_le_gt_dec y 0) as [Hy0|Hy0].
      - unfold v, pow2ceil. destruct (Z.leb_spec (maxl (addl ash ksh)) 0); [lia|]. assert (0 <= 2 ^ Z.log2_up (maxl (addl ash ksh)))%Z by (apply Z.pow_nonneg; lia). lia.
      - assert (G2 := pow2ceil_ge (maxl (addl ash ksh))). unfold v. lia. }
    clearbody v. clear Ha Hk. revert ksh Hl Hv. induction ash as [|x ash IH]; intros [|y ksh] Hl Hv; simpl in *; try discriminate; constructor.
    + apply Hv. auto.
    + apply IH; [lia|]. intros z Hz. apply Hv. auto.
  - clear - Hl. revert ksh Hl. induction ash as [|x ash IH]; intros [|y ksh] Hl; simpl in *; try discriminate; constructor; [lia|apply IH; lia].
Qed.

Lemma Forall2_len {A B} (P : A -> B -> Prop) l m : Forall2 P l m -> length l = length m.
Proof. induction 1; simpl; auto. Qed.
Lemma newshape_pos fp pp ash ksh : shapes_ok ash ksh -> pos_shape (newshape fp pp ash ksh) /\ length (newshape fp pp ash ksh) = length ash.
Proof.
  intros H. assert (G := newshape_ge_array fp pp ash ksh H). destruct H as [Ha _].
  split; [|symmetry; eapply Forall2_len; exact G].
  induction G as [|a n l l' H1 H2 IH]; [constructor|]. apply pos_shape_cons in Ha. constructor; [lia|]. apply IH; tauto.
Qed.

(** ** convolvend as a spatial sum *)
(** value of the circular convolution of the padded image at padded pixel X *)
Definition conv_at (N ash ksh : list Z) (a0 kern : list Z -> C) (v : C) (X : list Z) : C :=
  sumNC ksh (fun k => Cmult (kern k) (embed N ash a0 v (modl N (subl X (subl k (halfl ksh)))))).

Definition pads (b : boundary) (fft_pad psf_pad : bool) (fill : num) : bool * bool * num :=
  match b with
  | BNone | BFill => (fft_pad, true, fill)
  | BWrap => (false, false, Fin 0)
  | _ => (fft_pad, psf_pad, fill)
  end.

Definition the_kernel (nk : normk) (k0 : arr C) : list Z -> C :=
  match nk with
  | NkFalse => get k0
  | NkTrue => fun i => Cdiv (get k0 i) (sumNC (shape k0) (get k0))
  | NkFun f => fun i => Cdiv (get k0 i) (f k0)
  end.
Definition norm_ok (nk : normk) (k0 : arr C) : Prop :=
  match nk with
  | NkFalse => True
  | NkTrue => sumNC (shape k0) (get k0) <> RtoC 0
  | NkFun f => f k0 <> RtoC 0
  end.
Lemma Ceqb_spec z w : Ceqb z w = true <-> z = w.
Proof.
  unfold Ceqb. destruct (Req_EM_T (Re z) (Re w)), (Req_EM_T (Im z) (Im w)); split; intros H; auto; try discriminate;
  try (subst; contradiction). apply C_eq_ReIm; auto.
Qed.
Lemma Ceqb_false z w : z <> w -> Ceqb z w = false.
Proof. intros H. destruct (Ceqb z w) eqn:E; auto. apply Ceqb_spec in E. contradiction. Qed.

Definition is_normalized (nk : normk) (k0 : arr C) : bool :=
  match nk with
  | NkFalse => if Rlt_dec (Cmod (Cminus (sumNC (shape k0) (get k0)) (RtoC 1))) (/ 10 ^ 8) then true else false
  | _ => true
  end.
Definition weights (ash : list Z) (N : list Z) (array : arr cnum) (interp edge : bool) : list Z -> C :=
  embed N ash (fun i => if cisnan (get array i) && interp then RtoC 0 else RtoC 1) (if edge then RtoC 0 else RtoC 1).

Lemma idft_scal_r sh (f : list Z -> C) (c : C) x : idft sh (fun k => Cmult (f k) c) x = Cmult (idft sh f x) c.
Proof.
  unfold idft. rewrite <- Cmult_assoc. f_equal. rewrite <- sumNC_scal_r. apply sumNC_ext. intros k Hk. ring.
Qed.

Lemma convolvend_ok_gen env (array kernel : arr cnum) b fill crop fs fp pp interp edge mw nk unp nt :
  shapes_ok (shape array) (shape kernel) -> shape array <> [] -> b <> BExtend ->
  isnan (snd (pads b fp pp fill)) = false -> norm_ok nk (nan_zeroed kernel) ->
  let '(fpad, ppad, v) := pads b fp pp fill in
  let N := newshape fpad ppad (shape array) (shape kernel) in
  let kern := the_kernel nk (nan_zeroed kernel) in
  let cv := conv_at N (shape array) (shape kernel) (get (nan_zeroed array)) kern (RtoC (nan0 v)) in
  let ks := sumNC (shape kernel) kern in
  let wt := fun X => sumNC (shape kernel) (fun k => Cmult (kern k) (weights (shape array) N array interp edge (modl N (subl X (subl k (halfl (shape kernel))))))) in
  exists out, convolvend env true true array kernel b fill crop false fs fp pp interp edge mw nk unp nt = Ok (ConvReal out) /\
    shape out = (if crop then shape array else N) /\
    forall x, inb (shape out) x ->
      let X := if crop then addl x (starts N (shape array)) else x in
      get out x = if (interp || edge) && is_normalized nk (nan_zeroed kernel)
                  then if Ceqb ks (RtoC 0) && inbb (shape array) (subl X (starts N (shape array))) then NaN else reweight mw (cv X) (Rmax 0 (if inbb (shape array) (subl X (starts N (shape array))) then Re (Cmult (wt X) (Cinv ks))
                                                   else Re (weights (shape array) N array interp edge X)))
                  else Fin (Re (cv X)).
Proof.
  intros Hsh Hne Hb Hv Hno.
  destruct (pads b fp pp fill) as [[fpad ppad] v] eqn:Ep. cbv zeta. cbn [snd] in Hv.
  set (N := newshape fpad ppad (shape array) (shape kernel)).
  destruct (newshape_pos fpad ppad _ _ Hsh) as [HpN HlN]. fold N in HpN, HlN.
  assert (Hfa := Forall2_fits _ _ (newshape_ge_array fpad ppad _ _ Hsh)). fold N in Hfa.
  assert (Hfk := Forall2_fits _ _ (newshape_ge_kernel fpad ppad _ _ Hsh)). fold N in Hfk.
  unfold convolvend. cbn [negb]. destruct Hsh as [Ha [Hk Hl]].
  replace (Nat.eqb (ndim array) (ndim kernel)) with true by (symmetry; apply Nat.eqb_eq; exact Hl). cbn [negb].
  assert (Hfwd := get_ffts_fwd env nt unp). assert (Hinv := get_ffts_inv env nt unp).
  destruct (get_ffts env nt unp) as [fftn ifftn]. cbn [fst snd] in Hfwd, Hinv.
  set (k0 := nan_zeroed kernel) in *.
  assert (Hkern : (match nk with
     | NkFalse => (Some k0, if Rlt_dec (Cmod (Cminus (sumNC (shape k0) (get k0)) (RtoC 1))) (/ 10 ^ 8) then true else false)
     | NkTrue => (if Ceqb (sumNC (shape k0) (get k0)) (RtoC 0) then None else Some (amap (fun z => Cdiv z (sumNC (shape k0) (get k0))) k0), true)
     | NkFun f => (if Ceqb (f k0) (RtoC 0) then None else Some (amap (fun z => Cdiv z (f k0)) k0), true)
     end) = (Some (Arr (shape kernel) (the_kernel nk k0)), is_normalized nk k0)).
  { destruct nk; simpl in *; auto; rewrite Ceqb_false by auto; reflexivity. }
  rewrite Hkern. clear Hkern.
  assert (Hpads : (match b with
    | BNone | BFill => Ok (fp, true, fill) | BWrap => Ok (false, false, Fin 0)
    | BExtend => Raise NotImplementedError | BOther => Ok (fp, pp, fill) end) = Ok (fpad, ppad, v)).
  { rewrite <- Ep. destruct b; try reflexivity. contradiction. }
  rewrite Hpads. clear Hpads. cbn [bind].
  replace (fpad && Nat.eqb (length (shape array)) 0) with false by (destruct fpad, (shape array); auto; contradiction).
  fold N. rewrite check_fft_ok by auto. cbn [bind]. rewrite Hv. cbn [andb shape get].
  assert (HidN : forall X, inb N X -> forall i, inb N i -> True) by auto.
  assert (Hconv : forall (big : list Z -> C) X, inb N X ->
     get (ifftn (Arr N (fun k => Cmult (get (fftn (Arr N big)) k)
       (get (fftn (Arr N (ifftshiftN N (embed N (shape kernel) (the_kernel nk k0) (RtoC 0))))) k)))) X =
     sumNC (shape kernel) (fun k => Cmult (the_kernel nk k0 k) (big (modl N (subl X (subl k (halfl (shape kernel)))))))).
  { intros big X HX. rewrite (proj2 (Hinv _)). cbn [shape get].
    rewrite <- conv_core by auto. apply idft_ext. intros k Hkk. rewrite !(proj2 (Hfwd _)). reflexivity. }
  assert (Hwt : forall (big : list Z -> C) ks X, inb N X ->
     get (ifftn (Arr N (fun k => Cdiv (Cmult (get (fftn (Arr N big)) k)
       (get (fftn (Arr N (ifftshiftN N (embed N (shape kernel) (the_kernel nk k0) (RtoC 0))))) k)) ks))) X =
     Cmult (sumNC (shape kernel) (fun k => Cmult (the_kernel nk k0 k) (big (modl N (subl X (subl k (halfl (shape kernel)))))))) (Cinv ks)).
  { intros big ks X HX. rewrite <- Hconv by auto. rewrite !(proj2 (Hinv _)). cbn [shape get]. unfold Cdiv. apply idft_scal_r. }
  assert (Hcropin : forall x, inb (shape array) x -> inb N (addl x (starts N (shape array)))).
  { intros x Hx. apply (fits_addl _ (shape array)); auto. }
  destruct crop.
  - eexists. split; [reflexivity|]. split; [reflexivity|]. intros x Hx. cbn [crop_to shape get] in *.
    specialize (Hcropin x Hx).
    destruct ((interp || edge) && is_normalized nk k0).
    + rewrite (Hconv (embed N (shape array) (get (nan_zeroed array)) (RtoC (nan0 v)))) by auto.
      rewrite (Hwt (embed N (shape array) (fun i => if cisnan (get array i) && interp then RtoC 0 else RtoC 1) (if edge then RtoC 0 else RtoC 1))) by auto.
      reflexivity.
    + rewrite (Hconv (embed N (shape array) (get (nan_zeroed array)) (RtoC (nan0 v)))) by auto. reflexivity.
  - eexists. split; [reflexivity|]. split; [reflexivity|]. intros x Hx. cbn [shape get] in *.
    destruct ((interp || edge) && is_normalized nk k0).
    + rewrite (Hconv (embed N (shape array) (get (nan_zeroed array)) (RtoC (nan0 v)))) by auto.
      rewrite (Hwt (embed N (shape array) (fun i => if cisnan (get array i) && interp then RtoC 0 else RtoC 1) (if edge then RtoC 0 else RtoC 1))) by auto.
      reflexivity.
    + rewrite (Hconv (embed N (shape array) (get (nan_zeroed array)) (RtoC (nan0 v)))) by auto. reflexivity.
Qed.

Lemma convolvend_ok env (array kernel : arr cnum) b fill crop fs fp pp interp edge mw nk unp nt :
  shapes_ok (shape array) (shape kernel) -> shape array <> [] -> b <> BExtend ->
  isnan (snd (pads b fp pp fill)) = false -> norm_ok nk (nan_zeroed kernel) ->
  (interp || edge = true -> is_normalized nk (nan_zeroed kernel) = true ->
     sumNC (shape kernel) (the_kernel nk (nan_zeroed kernel)) <> RtoC 0) ->
  let '(fpad, ppad, v) := pads b fp pp fill in
  let N := newshape fpad ppad (shape array) (shape kernel) in
  let kern := the_kernel nk (nan_zeroed kernel) in
  let cv := conv_at N (shape array) (shape kernel) (get (nan_zeroed array)) kern (RtoC (nan0 v)) in
  let ks := sumNC (shape kernel) kern in
  let wt := fun X => sumNC (shape kernel) (fun k => Cmult (kern k) (weights (shape array) N array interp edge (modl N (subl X (subl k (halfl (shape kernel))))))) in
  exists out, convolvend env true true array kernel b fill crop false fs fp pp interp edge mw nk unp nt = Ok (ConvReal out) /\
    shape out = (if crop then shape array else N) /\
    forall x, inb (shape out) x ->
      let X := if crop then addl x (starts N (shape array)) else x in
      get out x = if (interp || edge) && is_normalized nk (nan_zeroed kernel)
                  then reweight mw (cv X) (Rmax 0 (if inbb (shape array) (subl X (starts N (shape array))) then Re (Cmult (wt X) (Cinv ks))
                                                   else Re (weights (shape array) N array interp edge X)))
                  else Fin (Re (cv X)).
Proof.
  intros Hsh Hne Hb Hv Hno Hks.
  assert (G := convolvend_ok_gen env array kernel b fill crop fs fp pp interp edge mw nk unp nt Hsh Hne Hb Hv Hno).
  destruct (pads b fp pp fill) as [[fpad ppad] v]. cbv zeta in *. destruct G as [out [H1 [H2 H3]]].
  exists out. split; [exact H1|]. split; [exact H2|]. intros x Hx. rewrite H3 by auto.
  destruct ((interp || edge) && is_normalized nk (nan_zeroed kernel)) eqn:E; auto.
  apply andb_true_iff in E. destruct E as [E1 E2]. rewrite Ceqb_false by auto. reflexivity.
Qed.

(** ** values of the padded image *)
Lemma pad1 N n nk x k : (0 <= x < n)%Z -> (0 <= k < nk)%Z -> (n + nk <= N)%Z ->
  let p := (x - (k - nk / 2))%Z in
  let q := ((x + slice_start N n - (k - nk / 2)) mod N - slice_start N n)%Z in
  ((0 <= p < n)%Z -> q = p) /\ (~ (0 <= p < n)%Z -> ~ (0 <= q < n)%Z).
Proof.
  intros Hx Hk HN p q. assert (Hs := slice_start_fits N n ltac:(lia)). set (s := slice_start N n) in *.
  assert (Hh : (0 <= nk / 2)%Z) by (apply Z.div_pos; lia).
  assert (Hh2 : (nk / 2 <= nk)%Z) by (apply Z.div_le_upper_bound; lia).
  split.
  - intros Hp. unfold q. rewrite Z.mod_small by (unfold p in Hp; lia). unfold p. ring.
  - intros Hp. unfold q. destruct (Z_lt_le_dec (x + s - (k - nk / 2)) 0).
    + replace (x + s - (k - nk / 2))%Z with ((x + s - (k - nk / 2) + N) + (-1) * N)%Z by ring.
      rewrite Z.mod_add by lia. rewrite Z.mod_small by lia. lia.
    + destruct (Z_lt_le_dec (x + s - (k - nk / 2)) N).
      * rewrite Z.mod_small by lia. unfold p in Hp. lia.
      * replace (x + s - (k - nk / 2))%Z with ((x + s - (k - nk / 2) - N) + 1 * N)%Z by ring.
        rewrite Z.mod_add by lia. rewrite Z.mod_small by lia. lia.
Qed.

Lemma embed_pad {A} N ash ksh (a : list Z -> A) v x k :
  Forall2 (fun s m => (s <= m)%Z) (addl ash ksh) N -> inb ash x -> inb ksh k -> length ash = length ksh ->
  embed N ash a v (modl N (subl (addl x (starts N ash)) (subl k (halfl ksh)))) =
  if inbb ash (subl x (subl k (halfl ksh))) then a (subl x (subl k (halfl ksh))) else v.
Proof.
  intros HF Hx Hk Hl. unfold embed.
  assert (G : inbb ash (subl (modl N (subl (addl x (starts N ash)) (subl k (halfl ksh)))) (starts N ash)) = inbb ash (subl x (subl k (halfl ksh))) /\
    (inbb ash (subl x (subl k (halfl ksh))) = true ->
      subl (modl N (subl (addl x (starts N ash)) (subl k (halfl ksh)))) (starts N ash) = subl x (subl k (halfl ksh)))).
  { unfold addl in HF. revert N ksh x k HF Hx Hk Hl. induction ash as [|n ash IH]; intros [|M N] [|nk ksh] [|x0 x] [|k0 k] HF Hx Hk Hl; simpl in *;
      try tauto; try discriminate; auto; try (inversion HF; fail).
    inversion HF as [|s m l l' Hs HF' E1 E2]; subst. destruct Hx as [Hx0 Hx], Hk as [Hk0 Hk].
    destruct (IH N ksh x k HF' Hx Hk ltac:(lia)) as [I1 I2].
    destruct (pad1 M n nk x0 k0 Hx0 Hk0 Hs) as [P1 P2].
    unfold subl, modl, addl, halfl, starts in *. simpl. rewrite I1.
    set (q := ((x0 + slice_start M n - (k0 - nk / 2)) mod M - slice_start M n)%Z) in *.
    set (p := (x0 - (k0 - nk / 2))%Z) in *.
    destruct (Z.leb_spec 0 p), (Z.ltb_spec p n); cbn [andb].
    - rewrite (P1 ltac:(lia)). destruct (Z.leb_spec 0 p), (Z.ltb_spec p n); try lia. cbn [andb]. split; auto.
      intros E. f_equal. auto.
    - assert (P3 := P2 ltac:(lia)). destruct (Z.leb_spec 0 q), (Z.ltb_spec q n); cbn [andb]; try lia; split; auto; discriminate.
    - assert (P3 := P2 ltac:(lia)). destruct (Z.leb_spec 0 q), (Z.ltb_spec q n); cbn [andb]; try lia; split; auto; discriminate.
    - assert (P3 := P2 ltac:(lia)). destruct (Z.leb_spec 0 q), (Z.ltb_spec q n); cbn [andb]; try lia; split; auto; discriminate. }
  destruct G as [G1 G2]. rewrite G1. destruct (inbb ash (subl x (subl k (halfl ksh)))) eqn:E; auto. rewrite G2; auto.
Qed.

(** no padding: the window is the whole array *)
Lemma starts_self N : starts N N = zerosl N.
Proof. unfold starts, zerosl. induction N as [|n N IH]; simpl; auto. rewrite IH, slice_start_eq. f_equal. lia. Qed.
Lemma subl_zeros l sh : length l = length sh -> subl l (zerosl sh) = l.
Proof. revert sh. induction l as [|x l IH]; intros [|n sh] H; simpl in *; try discriminate; auto. unfold subl, zerosl in *. simpl. rewrite IH by lia. f_equal. lia. Qed.
Lemma addl_zeros l sh : length l = length sh -> addl l (zerosl sh) = l.
Proof. revert sh. induction l as [|x l IH]; intros [|n sh] H; simpl in *; try discriminate; auto. unfold addl, zerosl in *. simpl. rewrite IH by lia. f_equal. lia. Qed.
Lemma embed_self {A} N (a : list Z -> A) v i : inb N i -> embed N N a v i = a i.
Proof.
  intros H. unfold embed. rewrite starts_self, subl_zeros by (apply inb_length; auto).
  apply inbb_spec in H. rewrite H. reflexivity.
Qed.
Lemma newshape_wrap ash ksh : Forall2 (fun k a => (k <= a)%Z) ksh ash -> newshape false false ash ksh = ash.
Proof. unfold newshape. induction 1; simpl; auto. rewrite IHForall2. f_equal. lia. Qed.
