(** chi2_shift sees nothing of its images but the chi-squared map: equal maps give equal results, whatever the options *)
From Coq Require Import ZArith Lia List Reals Lra Bool.
From Verif Require Import Base NDim Num Py M_correlate Arg M_chi2 L_chi2 L_chi2shift L_tail.
Import ListNotations.
Open Scope R_scope.

Lemma same_maps e im1 im2 err jm1 jm2 err' zm zm' us bd bd' nt nt' np np' nf vb re rc mas mns huge huge' ny nx c t1 t2 t3 c' t1' t2' t3' :
  shape im1 = [ny; nx] -> shape jm1 = [ny; nx] -> (0 < ny)%Z -> (0 < nx)%Z ->
  chi2n_map e im1 im2 err bd nt zm np true false huge = Ok (Chi2All c t1 t2 t3) ->
  chi2n_map e jm1 jm2 err' bd' nt' zm' np' true false huge' = Ok (Chi2All c' t1' t2' t3') ->
  shape c = [ny; nx] -> shape c' = [ny; nx] -> (forall k l, (0 <= k < ny)%Z -> (0 <= l < nx)%Z -> g2 c k l = g2 c' k l) ->
  same_call 0 (chi2_shift e im1 im2 err us bd nt np zm nf vb re rc mas mns huge) (chi2_shift e jm1 jm2 err' us bd' nt' np' zm' nf vb re rc mas mns huge') /\
  (rc = false -> chi2_shift e im1 im2 err us bd nt np zm nf vb re rc mas mns huge = chi2_shift e jm1 jm2 err' us bd' nt' np' zm' nf vb re rc mas mns huge').
Proof.
  intros S1 S2 Hy Hx E E' Sc Sc' V. unfold chi2_shift. rewrite E, E'. cbn [bind]. rewrite S1, S2.
  assert (T := tail_shift e ny nx c t1 t2 t3 c' t1' t2' t3' 0 us nf vb re rc mas mns Sc Sc' Hy Hx ltac:(intros i j Hi Hj; rewrite (V i j Hi Hj), Rplus_0_r; reflexivity)).
  split; [exact T|]. intros ->. apply (same_call_eq 0 _ _ T). intros l. apply tail_no_map.
Qed.
