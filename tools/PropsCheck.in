(** * PropsCheck: validity of the moments given to the constructors of UReal2 (C31, C50)

    Generated from tools/PropsCheck.in. *)

From Coq Require Import List ZArith Bool Reals Lra Lia.
From Verif Require Import Base Num Map UReal World HessGrad Moments CheckMoments UReal2 World2 Sums
  SpecProb SpecMom SpecHankel SpecDaniell CheckProofs Realize Distr Demo2 Demo3 Boundary.
Import ListNotations.
Local Open Scope R_scope.

(** ** C31 *)
@C31_check_with_threshold
@C31_threshold_zero
@C31_distributions_accepted
@C31_negative_threshold
@C31_failures_consume_nothing
(** The moments of a coin: eigenvalues and positivity. *)
Example C31_case_accepted : let lam := [0; 0; 0; 2; 3] in
  (fun _ => Some lam) (lower (stdmom pm1)) = Some lam /\ eigenvalues (hmat (stdmom pm1)) lam /\
  moments_of (stdmom pm1) coin toss /\ smallest 0 lam /\ largest 3 lam.
Proof.
  intro lam. split; [reflexivity|]. split; [|split].
  - split; [reflexivity|].
    assert (A : sqrt (/ 2) * sqrt (/ 2) = / 2) by (apply sqrt_sqrt; lra).
    assert (B : sqrt (/ 6) * sqrt (/ 6) = / 6) by (apply sqrt_sqrt; lra).
    assert (C : sqrt (/ 3) * sqrt (/ 3) = / 3) by (apply sqrt_sqrt; lra).
    set (a := sqrt (/ 2)) in *. set (b := sqrt (/ 6)) in *. set (c := sqrt (/ 3)) in *.
    exists (fun k i => nth i (nth k [[a; 0; -a; 0; 0]; [b; 0; b; 0; -2 * b]; [0; a; 0; -a; 0]; [0; a; 0; a; 0]; [c; 0; c; 0; c]] []) 0).
    split; [|split].
    + intros k l Hk Hl. do 5 (destruct k as [|k]; [do 5 (destruct l as [|l]; [cbn; lra|]); lia|]). lia.
    + intros k l Hk Hl. do 5 (destruct k as [|k]; [do 5 (destruct l as [|l]; [cbn; lra|]); lia|]). lia.
    + intros k l Hk Hl. do 5 (destruct k as [|k]; [do 5 (destruct l as [|l]; [cbn; lra|]); lia|]). lia.
  - intros k Hk. split; [exact I|]. do 9 (destruct k as [|k]; [cbn; unfold toss; field|]). lia.
  - split; split; cbn; try tauto; intros x H; repeat (destruct H as [<-|H]; [lra|]); destruct H.
Qed.
(** Fourth moment smaller than one. *)
Example C31_case_rejected : ~ psd (hmat (stdmom (mkM (0 : RN) 0 0 0 0 0))).
Proof.
  intro H. assert (A := H (fun i => nth i [1; 0; -1; 0; 0] 0)). unfold mform, hmat, five in A. cbn in A. lra.
Qed.

(** ** C50 *)
@C50_boundary_moments_refuted
(** Nor does any expectation that comes from a probability measure. *)
@C50_boundary_no_distribution_refuted
Example C50_measure_case : daniell coin.
Proof. exact coin_daniell. Qed.
@C50_positive_definite_partial
(** The standard normal distribution. *)
Example C50_case : forall x, (exists i, (i < 5)%nat /\ x i <> 0) -> 0 < mform (hmat (stdmom (normal_moments (N := RN)))) x.
Proof.
  intros x (i & Hi & Hx).
  set (a := x 0%nat). set (b := x 1%nat). set (c := x 2%nat). set (d := x 3%nat). set (e := x 4%nat).
  assert (E : mform (hmat (stdmom (normal_moments (N := RN)))) x =
    (a + c + 3 * e) ^ 2 + (b + 3 * d) ^ 2 + 2 * (c + 6 * e) ^ 2 + 6 * d ^ 2 + 24 * e ^ 2) by (unfold mform, hmat, five; cbn; fold a b c d e; ring).
  rewrite E. assert (S := pow2_ge_0).
  assert (A := S (a + c + 3 * e)). assert (B := S (b + 3 * d)). assert (C := S (c + 6 * e)). assert (D := S d). assert (F := S e).
  assert (P : forall y, y <> 0 -> 0 < y ^ 2) by (intros y Hy; assert (0 < y * y) by nra; cbn; lra).
  destruct (Req_dec e 0) as [Ee|Ee]; [|apply P in Ee; lra]. destruct (Req_dec d 0) as [Ed|Ed]; [|apply P in Ed; lra].
  destruct (Req_dec c 0) as [Ec|Ec]; [|assert (G : c + 6 * e <> 0) by (rewrite Ee; lra); apply P in G; lra].
  destruct (Req_dec b 0) as [Eb|Eb]; [|assert (G : b + 3 * d <> 0) by (rewrite Ed; lra); apply P in G; lra].
  destruct (Req_dec a 0) as [Ea|Ea]; [|assert (G : a + c + 3 * e <> 0) by (rewrite Ec, Ee; lra); apply P in G; lra].
  exfalso. apply Hx. do 5 (destruct i as [|i]; [assumption|]). lia.
Qed.
