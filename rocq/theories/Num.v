(** numpy's rounding functions and arange lengths on exact reals, with the facts the proofs need. *)
From Coq Require Import ZArith Lia List Reals Lra Bool.
From Verif Require Import Base.
Open Scope R_scope.

(** np.floor, np.ceil, np.fix/np.trunc and int() on finite floats; np.round (half to even) *)
Definition floorR (x : R) : Z := (up x - 1)%Z.
Definition ceilR (x : R) : Z := (- floorR (- x))%Z.
Definition truncR (x : R) : Z := if Rle_dec 0 x then floorR x else ceilR x.
Definition roundR (x : R) : Z :=
  let f := floorR x in
  if Rlt_dec (x - IZR f) (1/2) then f
  else if Rlt_dec (1/2) (x - IZR f) then (f + 1)%Z
  else if Z.even f then f else (f + 1)%Z.

Lemma floorR_spec x : IZR (floorR x) <= x < IZR (floorR x) + 1.
Proof. unfold floorR. destruct (archimed x) as [H1 H2]. rewrite minus_IZR. lra. Qed.
Lemma floorR_unique x z : IZR z <= x < IZR z + 1 -> floorR x = z.
Proof.
  intros [H1 H2]. assert (H := floorR_spec x). destruct H as [H3 H4].
  assert (IZR z < IZR (floorR x + 1)) by (rewrite plus_IZR; lra).
  assert (IZR (floorR x) < IZR (z + 1)) by (rewrite plus_IZR; lra).
  apply lt_IZR in H. apply lt_IZR in H0. lia.
Qed.
Lemma floorR_IZR z : floorR (IZR z) = z.
Proof. apply floorR_unique. lra. Qed.
Lemma ceilR_IZR z : ceilR (IZR z) = z.
Proof. unfold ceilR. rewrite <- opp_IZR, floorR_IZR. lia. Qed.
Lemma ceilR_spec x : x <= IZR (ceilR x) < x + 1.
Proof. unfold ceilR. rewrite opp_IZR. assert (H := floorR_spec (- x)). lra. Qed.
Lemma ceilR_unique x z : x <= IZR z < x + 1 -> ceilR x = z.
Proof. intros H. unfold ceilR. rewrite (floorR_unique (- x) (- z)); [lia|]. rewrite opp_IZR. lra. Qed.
Lemma floorR_div a b : (0 < b)%Z -> floorR (IZR a / IZR b) = (a / b)%Z.
Proof.
  intros Hb. apply floorR_unique. assert (Hb' : 0 < IZR b) by (apply IZR_lt; lia).
  assert (H := Z_div_mod_eq_full a b). assert (H2 := Z.mod_pos_bound a b Hb).
  assert (E : IZR a = IZR b * IZR (a / b) + IZR (a mod b)) by (rewrite <- mult_IZR, <- plus_IZR; f_equal; exact H).
  assert (L1 : 0 <= IZR (a mod b)) by (apply IZR_le; lia). assert (L2 : IZR (a mod b) < IZR b) by (apply IZR_lt; lia).
  rewrite E. replace ((IZR b * IZR (a / b) + IZR (a mod b)) / IZR b) with (IZR (a / b) + IZR (a mod b) / IZR b) by (field; lra).
  split; [assert (0 <= IZR (a mod b) / IZR b) by (apply Rmult_le_pos; [lra|left; apply Rinv_0_lt_compat; lra]); lra|].
  apply Rplus_lt_compat_l. apply (Rmult_lt_reg_r (IZR b)); auto. replace (IZR (a mod b) / IZR b * IZR b) with (IZR (a mod b)) by (field; lra). lra.
Qed.
Lemma floorR_mono x y : x <= y -> (floorR x <= floorR y)%Z.
Proof.
  intros H. assert (H1 := floorR_spec x). assert (H2 := floorR_spec y).
  assert (IZR (floorR x) < IZR (floorR y + 1)) by (rewrite plus_IZR; lra). apply lt_IZR in H0. lia.
Qed.
Lemma truncR_IZR z : truncR (IZR z) = z.
Proof. unfold truncR. destruct (Rle_dec 0 (IZR z)); [apply floorR_IZR|apply ceilR_IZR]. Qed.
Lemma roundR_IZR z : roundR (IZR z) = z.
Proof. unfold roundR. rewrite floorR_IZR. destruct (Rlt_dec (IZR z - IZR z) (1/2)); [reflexivity|lra]. Qed.
Lemma roundR_spec x : Rabs (IZR (roundR x) - x) <= 1/2.
Proof.
  unfold roundR. assert (H := floorR_spec x).
  destruct (Rlt_dec (x - IZR (floorR x)) (1/2)); [apply Rabs_le; lra|].
  destruct (Rlt_dec (1/2) (x - IZR (floorR x))); [rewrite plus_IZR; apply Rabs_le; lra|].
  destruct (Z.even (floorR x)); rewrite ?plus_IZR; apply Rabs_le; lra.
Qed.
Lemma roundR_near x z : Rabs (x - IZR z) < 1/2 -> roundR x = z.
Proof.
  intros H. apply Rabs_def2 in H. assert (G := roundR_spec x). unfold Rabs in G; destruct (Rcase_abs (IZR (roundR x) - x)) in G.
  all: assert (H0 : IZR (roundR x) < IZR (z + 1)) by (rewrite plus_IZR; lra);
    assert (H1 : IZR z < IZR (roundR x + 1)) by (rewrite plus_IZR; lra);
    apply lt_IZR in H0; apply lt_IZR in H1; lia.
Qed.

(** number of elements of np.arange(x) *)
Definition arange_len (x : R) : Z := Z.max 0 (ceilR x).
Lemma arange_len_IZR n : (0 <= n)%Z -> arange_len (IZR n) = n.
Proof. intros H. unfold arange_len. rewrite ceilR_IZR. lia. Qed.
