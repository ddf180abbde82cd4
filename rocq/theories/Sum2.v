(** Sums over the pixels of a 2-D image. *)
From Coq Require Import ZArith Lia List Reals Lra Bool.
From Verif Require Import Base NDim.
Import ListNotations.
Open Scope R_scope.

Definition sum2 (ny nx : Z) (f : Z -> Z -> R) : R := sumR ny (fun i => sumR nx (fun j => f i j)).

Lemma sum2_sumNR ny nx (f : list Z -> R) : sumNR [ny; nx] f = sum2 ny nx (fun i j => f [i; j]).
Proof. reflexivity. Qed.
Lemma sum2_ext ny nx f g : (forall i j, (0 <= i < ny)%Z -> (0 <= j < nx)%Z -> f i j = g i j) -> sum2 ny nx f = sum2 ny nx g.
Proof. intros H. apply sumR_ext. intros i Hi. apply sumR_ext. intros j Hj. auto. Qed.
Lemma sum2_plus ny nx f g : sum2 ny nx (fun i j => f i j + g i j) = sum2 ny nx f + sum2 ny nx g.
Proof. unfold sum2. rewrite <- sumR_plus. apply sumR_ext. intros. apply sumR_plus. Qed.
Lemma sum2_minus ny nx f g : sum2 ny nx (fun i j => f i j - g i j) = sum2 ny nx f - sum2 ny nx g.
Proof. unfold sum2. rewrite <- sumR_minus. apply sumR_ext. intros. apply sumR_minus. Qed.
Lemma sum2_scal ny nx c f : sum2 ny nx (fun i j => c * f i j) = c * sum2 ny nx f.
Proof. unfold sum2. rewrite <- sumR_scal. apply sumR_ext. intros. apply sumR_scal. Qed.
Lemma sum2_scal_r ny nx c f : sum2 ny nx (fun i j => f i j * c) = sum2 ny nx f * c.
Proof. rewrite Rmult_comm, <- sum2_scal. apply sum2_ext. intros. ring. Qed.
Lemma sum2_nonneg ny nx f : (forall i j, (0 <= i < ny)%Z -> (0 <= j < nx)%Z -> 0 <= f i j) -> 0 <= sum2 ny nx f.
Proof. intros H. apply sumR_nonneg. intros i Hi. apply sumR_nonneg. auto. Qed.
Lemma sum2_le ny nx f g : (forall i j, (0 <= i < ny)%Z -> (0 <= j < nx)%Z -> f i j <= g i j) -> sum2 ny nx f <= sum2 ny nx g.
Proof. intros H. apply sumR_le. intros i Hi. apply sumR_le. auto. Qed.
Lemma sum2_nonneg_0 ny nx f : (forall i j, (0 <= i < ny)%Z -> (0 <= j < nx)%Z -> 0 <= f i j) -> sum2 ny nx f = 0 ->
  forall i j, (0 <= i < ny)%Z -> (0 <= j < nx)%Z -> f i j = 0.
Proof.
  intros H H0 i j Hi Hj.
  assert (G := sumR_nonneg_0 ny (fun i => sumR nx (fun j => f i j))). cbv beta in G.
  assert (G1 : sumR nx (fun j => f i j) = 0). { apply G; auto. intros k Hk. apply sumR_nonneg. auto. }
  apply (sumR_nonneg_0 nx (fun j => f i j)); auto.
Qed.
Lemma sum2_const0 ny nx f : (forall i j, (0 <= i < ny)%Z -> (0 <= j < nx)%Z -> f i j = 0) -> sum2 ny nx f = 0.
Proof. intros H. apply sumR_const0. intros i Hi. apply sumR_const0. auto. Qed.
Lemma sum2_shift ny nx f dy dx : (0 < ny)%Z -> (0 < nx)%Z ->
  sum2 ny nx (fun i j => f ((i + dy) mod ny)%Z ((j + dx) mod nx)%Z) = sum2 ny nx f.
Proof.
  intros Hy Hx. unfold sum2. rewrite (sumR_mod_shift ny (fun i => sumR nx (fun j => f i ((j + dx) mod nx)%Z))) by auto.
  apply sumR_ext. intros i Hi. apply (sumR_mod_shift nx (fun j => f i j)); auto.
Qed.
Lemma sum2_rev ny nx f : sum2 ny nx (fun i j => f (ny - 1 - i)%Z (nx - 1 - j)%Z) = sum2 ny nx f.
Proof.
  unfold sum2. rewrite (sumR_rev ny (fun i => sumR nx (fun j => f i (nx - 1 - j)%Z))). apply sumR_ext. intros i Hi.
  apply (sumR_rev nx (fun j => f i j)).
Qed.
Lemma sum2_const ny nx c : (0 <= ny)%Z -> (0 <= nx)%Z -> sum2 ny nx (fun _ _ => c) = IZR (ny * nx) * c.
Proof.
  intros Hy Hx. unfold sum2. rewrite (sumR_ext ny _ (fun _ => IZR nx * c)) by (intros; rewrite sumR_const; auto; ring).
  rewrite sumR_const by auto. rewrite mult_IZR. ring.
Qed.
Lemma sum2_swap ny nx my mx (f : Z -> Z -> Z -> Z -> R) :
  sum2 ny nx (fun i j => sum2 my mx (fun k l => f i j k l)) = sum2 my mx (fun k l => sum2 ny nx (fun i j => f i j k l)).
Proof.
  unfold sum2.
  rewrite (sumR_ext ny _ (fun i => sumR my (fun k => sumR mx (fun l => sumR nx (fun j => f i j k l))))).
  2:{ intros i Hi. rewrite sumR_swap. apply sumR_ext. intros k Hk. apply sumR_swap. }
  rewrite sumR_swap. apply sumR_ext. intros k Hk. apply sumR_swap.
Qed.
Lemma sum2_term_le ny nx f i j : (forall i j, (0 <= i < ny)%Z -> (0 <= j < nx)%Z -> 0 <= f i j) ->
  (0 <= i < ny)%Z -> (0 <= j < nx)%Z -> f i j <= sum2 ny nx f.
Proof.
  intros H Hi Hj. apply Rle_trans with (sumR nx (fun j => f i j)).
  - apply (sumR_term_le nx (fun j => f i j)); auto.
  - apply (sumR_term_le ny (fun i => sumR nx (fun j => f i j))); auto. intros. apply sumR_nonneg. auto.
Qed.
