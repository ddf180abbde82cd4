(** N-dimensional discrete Fourier transform: orthogonality, inversion, convolution theorem.
    [dft]/[idft] are the mathematical transforms; M_fast_ffts.v relates them to the code. *)
From Coq Require Import ZArith Lia List Reals Lra Bool.
From Coquelicot Require Import Complex.
From Verif Require Import Base NDim.
Import ListNotations.
Open Scope R_scope.

(** sum_d k_d y_d / n_d *)
Fixpoint phZ (sh k y : list Z) : R :=
  match sh, k, y with
  | n :: sh', k0 :: k', y0 :: y' => IZR k0 * IZR y0 / IZR n + phZ sh' k' y'
  | _, _, _ => 0
  end.

(** forward DFT (np.fft.fftn): A[k] = sum_y a[y] exp(-2 pi i sum_d k_d y_d/n_d) *)
Definition dft (sh : list Z) (a : list Z -> C) (k : list Z) : C :=
  sumNC sh (fun y => Cmult (a y) (cis (- (2 * PI * phZ sh k y)))).
(** inverse DFT (np.fft.ifftn), normalised by the number of pixels *)
Definition idft (sh : list Z) (a : list Z -> C) (x : list Z) : C :=
  Cmult (RtoC (/ IZR (prodZ sh))) (sumNC sh (fun k => Cmult (a k) (cis (2 * PI * phZ sh k x)))).

Fixpoint eqmodb (sh j : list Z) : bool :=
  match sh, j with
  | n :: sh', x :: j' => Z.eqb (x mod n) 0 && eqmodb sh' j'
  | _, _ => true
  end.

Definition ind (b : bool) : C := if b then RtoC 1 else RtoC 0.
Lemma ind_and a b : ind (a && b) = Cmult (ind a) (ind b).
Proof. destruct a, b; simpl; ring. Qed.

Lemma phZ_sym sh k y : phZ sh k y = phZ sh y k.
Proof.
  revert k y; induction sh as [|n sh IH]; intros [|k ks] [|y ys]; simpl; auto.
  rewrite IH. unfold Rdiv. ring.
Qed.

Lemma phZ_sub sh k x y : length x = length y -> phZ sh k (subl x y) = phZ sh k x - phZ sh k y.
Proof.
  revert k x y; induction sh as [|n sh IH]; intros [|k ks] [|x xs] [|y ys] H; simpl in *; try discriminate; try lra.
  change (zipw Z.sub xs ys) with (subl xs ys). rewrite IH by lia. rewrite minus_IZR. unfold Rdiv. ring.
Qed.

Lemma phZ_add sh k x y : length x = length y -> phZ sh k (addl x y) = phZ sh k x + phZ sh k y.
Proof.
  revert k x y; induction sh as [|n sh IH]; intros [|k ks] [|x xs] [|y ys] H; simpl in *; try discriminate; try lra.
  change (zipw Z.add xs ys) with (addl xs ys). rewrite IH by lia. rewrite plus_IZR. unfold Rdiv. ring.
Qed.

Lemma cis_2pi_plus a b : cis (2 * PI * (a + b)) = Cmult (cis (2 * PI * a)) (cis (2 * PI * b)).
Proof. rewrite <- cis_plus. f_equal. ring. Qed.
Lemma cis_m2pi_plus a b : cis (- (2 * PI * (a + b))) = Cmult (cis (- (2 * PI * a))) (cis (- (2 * PI * b))).
Proof. rewrite <- cis_plus. f_equal. ring. Qed.

Lemma ortho sh j : pos_shape sh -> length j = length sh ->
  sumNC sh (fun k => cis (2 * PI * phZ sh k j)) = Cmult (RtoC (IZR (prodZ sh))) (ind (eqmodb sh j)).
Proof.
  intros Hp. revert j. induction sh as [|n sh IH]; intros [|x j] Hl; simpl in Hl; try discriminate.
  - rewrite sumNC_nil. simpl. rewrite Rmult_0_r, cis_0. ring.
  - apply pos_shape_cons in Hp. destruct Hp as [Hn Hp].
    rewrite sumNC_cons.
    rewrite (sumC_ext n _ (fun i => sumNC sh (fun l => Cmult (cis (2 * PI * (IZR i * IZR x / IZR n))) (cis (2 * PI * phZ sh l j))))).
    2:{ intros i Hi. apply sumNC_ext. intros l Hl'. simpl phZ. apply cis_2pi_plus. }
    rewrite sumNC_factor, char_sum, IH by (auto; lia).
    simpl eqmodb. rewrite ind_and. simpl prodZ. rewrite mult_IZR, RtoC_mult.
    destruct (Z.eqb (x mod n) 0); unfold ind; ring.
Qed.

(** Kronecker delta inside a sum *)
Lemma eqmodb_iff sh x y : pos_shape sh -> length x = length sh -> inb sh y ->
  (eqmodb sh (subl x y) = true <-> y = modl sh x).
Proof.
  intros Hp. revert x y. induction sh as [|n sh IH]; intros [|x xs] [|y ys] Hl Hy; simpl in *; try discriminate; try tauto.
  apply pos_shape_cons in Hp. destruct Hp as [Hn Hp]. destruct Hy as [Hy Hys].
  change (zipw Z.sub xs ys) with (subl xs ys). change (modl (n :: sh) (x :: xs)) with ((x mod n)%Z :: modl sh xs).
  rewrite andb_true_iff, IH by (auto; lia). rewrite Z.eqb_eq.
  assert (Hd : ((x - y) mod n = 0 <-> y = x mod n)%Z).
  { split; intros H.
    - apply Z.mod_divide in H; [|lia]. destruct H as [q Hq].
      replace x with (y + q * n)%Z by lia. rewrite Z_mod_plus_full. symmetry. apply Z.mod_small; lia.
    - subst y. rewrite Zminus_mod_idemp_r. rewrite Z.sub_diag. apply Z.mod_0_l. lia. }
  rewrite Hd. split; intros H; [destruct H; congruence|inversion H; auto].
Qed.

Lemma eqmodb_sub_modl sh x : pos_shape sh -> length x = length sh -> eqmodb sh (subl x (modl sh x)) = true.
Proof. intros Hp Hl. apply eqmodb_iff; auto. apply modl_inb; auto. Qed.

Lemma kron sh f x : pos_shape sh -> length x = length sh ->
  sumNC sh (fun y => Cmult (f y) (ind (eqmodb sh (subl x y)))) = f (modl sh x).
Proof.
  intros Hp Hl. rewrite (sumNC_single sh _ (modl sh x)).
  - rewrite eqmodb_sub_modl by auto. simpl. ring.
  - apply modl_inb; auto.
  - intros i Hi Hne. destruct (eqmodb sh (subl x i)) eqn:E; simpl; [|ring].
    apply eqmodb_iff in E; auto. congruence.
Qed.

Lemma prodZ_neq0 sh : pos_shape sh -> IZR (prodZ sh) <> 0.
Proof. intros H. apply prodZ_pos in H. apply IZR_neq0. lia. Qed.

Lemma RtoC_inv_cancel r z : r <> 0 -> Cmult (RtoC (/ r)) (Cmult (RtoC r) z) = z.
Proof.
  intros H. rewrite Cmult_assoc, <- RtoC_mult, Rinv_l by exact H. ring.
Qed.

(** normalised character sum *)
Lemma ortho_n sh j : pos_shape sh -> length j = length sh ->
  Cmult (RtoC (/ IZR (prodZ sh))) (sumNC sh (fun k => cis (2 * PI * phZ sh k j))) = ind (eqmodb sh j).
Proof. intros Hp Hl. rewrite ortho by auto. apply RtoC_inv_cancel. apply prodZ_neq0; auto. Qed.

(** inversion (all integer indices, read modulo the shape) *)
Lemma idft_dft sh a x : pos_shape sh -> length x = length sh -> idft sh (dft sh a) x = a (modl sh x).
Proof.
  intros Hp Hl. unfold idft, dft.
  rewrite (sumNC_ext sh _ (fun k => sumNC sh (fun y => Cmult (a y) (cis (2 * PI * phZ sh k (subl x y)))))).
  2:{ intros k Hk. rewrite <- sumNC_scal_r. apply sumNC_ext. intros y Hy.
      rewrite phZ_sub by (rewrite (inb_length _ _ Hy); auto).
      rewrite <- Cmult_assoc, <- cis_plus. f_equal. f_equal. ring. }
  rewrite sumNC_swap. rewrite <- sumNC_scal.
  rewrite <- (kron sh a x) by auto. apply sumNC_ext. intros y Hy.
  rewrite sumNC_scal. rewrite Cmult_assoc, (Cmult_comm (RtoC _) (a y)), <- Cmult_assoc. f_equal.
  apply ortho_n; auto. rewrite subl_length, (inb_length _ _ Hy). lia.
Qed.

(** circular convolution theorem *)
Lemma idft_dft_mul sh a b x : pos_shape sh -> length x = length sh ->
  idft sh (fun k => Cmult (dft sh a k) (dft sh b k)) x =
  sumNC sh (fun y => Cmult (a y) (b (modl sh (subl x y)))).
Proof.
  intros Hp Hl. unfold idft, dft.
  rewrite (sumNC_ext sh _ (fun k => sumNC sh (fun y => Cmult (a y) (sumNC sh (fun z => Cmult (b z) (cis (2 * PI * phZ sh k (subl (subl x y) z)))))))).
  2:{ intros k Hk. rewrite <- Cmult_assoc. rewrite <- sumNC_scal_r. apply sumNC_ext. intros y Hy.
      rewrite <- Cmult_assoc. f_equal.
      rewrite Cmult_assoc, <- sumNC_scal, <- sumNC_scal_r. apply sumNC_ext. intros z Hz.
      rewrite phZ_sub by (rewrite subl_length, (inb_length _ _ Hz), (inb_length _ _ Hy); lia).
      rewrite phZ_sub by (rewrite (inb_length _ _ Hy); auto).
      replace (2 * PI * (phZ sh k x - phZ sh k y - phZ sh k z))
        with (- (2 * PI * phZ sh k y) + (- (2 * PI * phZ sh k z) + 2 * PI * phZ sh k x)) by ring.
      rewrite !cis_plus. ring. }
  rewrite sumNC_swap, <- sumNC_scal. apply sumNC_ext. intros y Hy.
  rewrite sumNC_scal. rewrite Cmult_assoc, (Cmult_comm (RtoC _) (a y)), <- Cmult_assoc. f_equal.
  assert (Hly := inb_length _ _ Hy).
  rewrite sumNC_swap, <- sumNC_scal.
  rewrite <- (kron sh b (subl x y)) by (auto; rewrite subl_length; lia).
  apply sumNC_ext. intros z Hz. assert (Hlz := inb_length _ _ Hz).
  rewrite sumNC_scal. rewrite Cmult_assoc, (Cmult_comm (RtoC _) (b z)), <- Cmult_assoc. f_equal.
  apply ortho_n; auto. rewrite !subl_length. lia.
Qed.

Lemma dft_ext sh a b k : (forall i, inb sh i -> a i = b i) -> dft sh a k = dft sh b k.
Proof. intros H. apply sumNC_ext. intros i Hi. rewrite H by auto. reflexivity. Qed.
Lemma idft_ext sh a b k : (forall i, inb sh i -> a i = b i) -> idft sh a k = idft sh b k.
Proof. intros H. unfold idft. f_equal. apply sumNC_ext. intros i Hi. rewrite H by auto. reflexivity. Qed.

(** the two transforms are exchanged by conjugation *)
Lemma idft_conj sh a x : pos_shape sh ->
  idft sh a x = Cmult (RtoC (/ IZR (prodZ sh))) (Cconj (dft sh (fun k => Cconj (a k)) x)).
Proof.
  intros Hp. unfold idft, dft. f_equal. rewrite Cconj_sumNC. apply sumNC_ext. intros k Hk.
  rewrite Cconj_mult, Cconj_inv, cis_opp_conj, Cconj_inv, phZ_sym. reflexivity.
Qed.

Lemma dft_idft sh a k : pos_shape sh -> length k = length sh -> dft sh (idft sh a) k = a (modl sh k).
Proof.
  intros Hp Hl.
  assert (E : dft sh (idft sh a) k = Cconj (idft sh (dft sh (fun z => Cconj (a z))) k)).
  { unfold dft at 1. unfold idft at 2. rewrite Cconj_mult, Cconj_RtoC, Cconj_sumNC, <- sumNC_scal.
    apply sumNC_ext. intros y Hy. rewrite idft_conj by auto.
    rewrite Cconj_mult, phZ_sym, cis_opp_conj. ring. }
  rewrite E, idft_dft by auto. apply Cconj_inv.
Qed.

(** Parseval *)
Lemma parseval sh a b : pos_shape sh ->
  sumNC sh (fun k => Cmult (dft sh a k) (Cconj (dft sh b k))) =
  Cmult (RtoC (IZR (prodZ sh))) (sumNC sh (fun y => Cmult (a y) (Cconj (b y)))).
Proof.
  intros Hp.
  rewrite (sumNC_ext sh _ (fun k => sumNC sh (fun y => Cmult (Cmult (a y) (cis (- (2 * PI * phZ sh k y)))) (Cconj (dft sh b k))))).
  2:{ intros k Hk. unfold dft at 1. rewrite <- sumNC_scal_r. reflexivity. }
  rewrite sumNC_swap.
  rewrite <- sumNC_scal. apply sumNC_ext. intros y Hy.
  transitivity (Cmult (RtoC (IZR (prodZ sh))) (Cmult (a y) (Cconj (idft sh (dft sh b) y)))).
  2:{ rewrite idft_dft by (auto; apply inb_length; auto). rewrite modl_small by auto. reflexivity. }
  unfold idft. rewrite Cconj_mult, Cconj_RtoC, Cconj_sumNC.
  rewrite (sumNC_ext sh _ (fun k => Cmult (a y) (Cmult (Cconj (dft sh b k)) (cis (- (2 * PI * phZ sh k y)))))).
  2:{ intros k Hk. ring. }
  rewrite sumNC_scal.
  rewrite (sumNC_ext sh (fun i => Cconj _) (fun k => Cmult (Cconj (dft sh b k)) (cis (- (2 * PI * phZ sh k y))))).
  2:{ intros k Hk. rewrite Cconj_mult, cis_opp_conj. reflexivity. }
  set (S := sumNC sh _).
  transitivity (Cmult (Cmult (RtoC (IZR (prodZ sh))) (RtoC (/ IZR (prodZ sh)))) (Cmult (a y) S)); [|ring].
  rewrite <- RtoC_mult, Rinv_r by (apply prodZ_neq0; auto). ring.
Qed.

Lemma dft_periodic sh a k : pos_shape sh -> length k = length sh -> dft sh a (modl sh k) = dft sh a k.
Proof.
  intros Hp Hl. apply sumNC_ext. intros y Hy. f_equal.
  assert (Hly := inb_length _ _ Hy). clear Hy a.
  revert k y Hl Hly. induction sh as [|n sh IH]; intros [|k ks] [|y ys] Hl Hly; simpl in *; try discriminate; auto.
  apply pos_shape_cons in Hp. destruct Hp as [Hn Hp].
  change (zipw Z.modulo ks sh) with (modl sh ks).
  rewrite !cis_m2pi_plus. rewrite IH by (auto; lia). f_equal.
  apply (cis_congr _ _ (k / n * y)).
  assert (Hn' : IZR n <> 0) by (apply IZR_neq0; lia).
  rewrite (Z.div_mod k n) at 2 by lia. rewrite !mult_IZR, plus_IZR, mult_IZR. field. exact Hn'.
Qed.
