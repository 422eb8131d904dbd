(** * PropsCheck: validity of the moments given to the constructors of UReal2 (C31, C50)

    Generated from tools/PropsCheck.in. *)

From Coq Require Import List ZArith Bool Reals Lra Lia.
From Verif Require Import Base Num Map UReal World HessGrad Moments CheckMoments UReal2 World2 Sums
  SpecProb SpecMom SpecHankel SpecDaniell CheckProofs Realize Distr Demo2 Demo3 Boundary.
Import ListNotations.
Local Open Scope R_scope.

(** ** C31 *)
Theorem C31_check_with_threshold : forall eig (w : world2 RN) v (n s thr : R) (m : moms RN) (c : cmoms RN) lam,
  0 <= s -> 0 <= thr ->
  let bad := exists lo hi, smallest lo lam /\ largest hi lam /\ lo < - thr * hi in
  (eig (lower (stdmom m)) = Some lam -> eigenvalues (hmat (stdmom m)) lam ->
   let r := exec2 eig w (ENewStd v (n : RN) (s : RN) m (thr : RN)) in
   (bad -> r = (w, Throw InvalidArgument)) /\ (~ bad -> snd r = Ret tt)) /\
  (eig (lower (cenmom c)) = Some lam -> eigenvalues (hmat (cenmom c)) lam ->
   let r := exec2 eig w (ENew v (n : RN) c (thr : RN)) in
   (bad -> r = (w, Throw InvalidArgument)) /\ (~ bad -> snd r = Ret tt)).
Proof. exact C31_check_with_threshold_proof. Qed.
Print Assumptions C31_check_with_threshold.
Theorem C31_threshold_zero : forall eig (w : world2 RN) v (n s : R) (m : moms RN) (c : cmoms RN) lam, 0 <= s ->
  (eig (lower (stdmom m)) = Some lam -> eigenvalues (hmat (stdmom m)) lam ->
   let r := exec2 eig w (ENewStd v (n : RN) (s : RN) m (0 : RN)) in
   (r = (w, Throw InvalidArgument) <-> ~ psd (hmat (stdmom m))) /\ (snd r = Ret tt <-> psd (hmat (stdmom m)))) /\
  (eig (lower (cenmom c)) = Some lam -> eigenvalues (hmat (cenmom c)) lam ->
   let r := exec2 eig w (ENew v (n : RN) c (0 : RN)) in
   (r = (w, Throw InvalidArgument) <-> ~ psd (hmat (cenmom c))) /\ (snd r = Ret tt <-> psd (hmat (cenmom c)))).
Proof. exact C31_threshold_zero_proof. Qed.
Print Assumptions C31_threshold_zero.
Theorem C31_distributions_accepted : forall eig (w : world2 RN) v (n s thr : R) (m : moms RN) (c : cmoms RN) (P : prob) (Z : Om P -> R) lam,
  0 <= s -> 0 <= thr ->
  (eig (lower (stdmom m)) = Some lam -> eigenvalues (hmat (stdmom m)) lam -> moments_of (stdmom m) P Z ->
   snd (exec2 eig w (ENewStd v (n : RN) (s : RN) m (thr : RN))) = Ret tt) /\
  (eig (lower (cenmom c)) = Some lam -> eigenvalues (hmat (cenmom c)) lam -> moments_of (cenmom c) P Z ->
   snd (exec2 eig w (ENew v (n : RN) c (thr : RN))) = Ret tt).
Proof. exact C31_distributions_accepted_proof. Qed.
Print Assumptions C31_distributions_accepted.
Theorem C31_negative_threshold : forall eig (w : world2 RN) v (n s thr : R) (m : moms RN) (c : cmoms RN), 0 <= s -> thr < 0 ->
  snd (exec2 eig w (ENewStd v (n : RN) (s : RN) m (thr : RN))) = Ret tt /\ snd (exec2 eig w (ENew v (n : RN) c (thr : RN))) = Ret tt.
Proof. exact C31_negative_threshold_proof. Qed.
Print Assumptions C31_negative_threshold.
Theorem C31_failures_consume_nothing : forall eig (w : world2 RN) v (n s thr : R) (m : moms RN) (c : cmoms RN),
  (s < 0 -> exec2 eig w (ENewStd v (n : RN) (s : RN) m (thr : RN)) = (w, Throw InvalidArgument)) /\
  (0 <= s -> 0 <= thr -> eig (lower (stdmom m)) = None -> exec2 eig w (ENewStd v (n : RN) (s : RN) m (thr : RN)) = (w, Throw RuntimeError)) /\
  (0 <= thr -> eig (lower (cenmom c)) = None -> exec2 eig w (ENew v (n : RN) c (thr : RN)) = (w, Throw RuntimeError)) /\
  forall k, (exists x y t q, k = ENewStd v x y t q) \/ (exists x t q, k = ENew v x t q) ->
    snd (exec2 eig w k) = Ret tt \/ fst (exec2 eig w k) = w.
Proof. exact C31_failures_consume_nothing_proof. Qed.
Print Assumptions C31_failures_consume_nothing.
(** The moments of a coin: eigenvalues and positivity. *)
Example C31_case_accepted : let lam := [0; 0; 0; 2; 3] in
  (fun _ => Some lam) (lower (stdmom pm1)) = Some lam /\ eigenvalues (hmat (stdmom pm1)) lam /\
  moments_of (stdmom pm1) coin toss /\ smallest 0 lam /\ largest 3 lam.
Proof.
  intro lam. split; [reflexivity|]. split; [|split].
  - split; [reflexivity|].
    assert (A : sqrt (/ 2) * sqrt (/ 2) = / 2) by (apply sqrt_sqrt; lra).
    assert (B : sqrt (/ 6) * sqrt (/ 6) = / 6) by (apply sqrt_sqrt; lra).
    assert (C : sqrt (/ 3) * sqrt (/ 3) = / 3) by (apply sqrt_sqrt; lra).
    set (a := sqrt (/ 2)) in *. set (b := sqrt (/ 6)) in *. set (c := sqrt (/ 3)) in *.
    exists (fun k i => nth i (nth k [[a; 0; -a; 0; 0]; [b; 0; b; 0; -2 * b]; [0; a; 0; -a; 0]; [0; a; 0; a; 0]; [c; 0; c; 0; c]] []) 0).
    split; [|split].
    + intros k l Hk Hl. do 5 (destruct k as [|k]; [do 5 (destruct l as [|l]; [cbn; lra|]); lia|]). lia.
    + intros k l Hk Hl. do 5 (destruct k as [|k]; [do 5 (destruct l as [|l]; [cbn; lra|]); lia|]). lia.
    + intros k l Hk Hl. do 5 (destruct k as [|k]; [do 5 (destruct l as [|l]; [cbn; lra|]); lia|]). lia.
  - intros k Hk. split; [exact I|]. do 9 (destruct k as [|k]; [cbn; unfold toss; field|]). lia.
  - split; split; cbn; try tauto; intros x H; repeat (destruct H as [<-|H]; [lra|]); destruct H.
Qed.
(** Fourth moment smaller than one. *)
Example C31_case_rejected : ~ psd (hmat (stdmom (mkM (0 : RN) 0 0 0 0 0))).
Proof.
  intro H. assert (A := H (fun i => nth i [1; 0; -1; 0; 0] 0)). unfold mform, hmat, five in A. cbn in A. lra.
Qed.

(** ** C50 *)
Theorem C50_boundary_moments_refuted : exists m : moms RN,
  (forall eig (w : world2 RN) v (n s : R) lam, 0 <= s ->
     eig (lower (stdmom m)) = Some lam -> eigenvalues (hmat (stdmom m)) lam ->
     snd (exec2 eig w (ENewStd v (n : RN) (s : RN) m (0 : RN))) = Ret tt) /\
  ~ exists pts : list (R * R), (forall p, In p pts -> 0 <= fst p) /\
      forall k, (k <= 8)%nat -> rsum pts (fun p => fst p * snd p ^ k) = stdmom m k.
Proof. exact C50_boundary_moments_refuted_proof. Qed.
Print Assumptions C50_boundary_moments_refuted.
(** Nor does any expectation that comes from a probability measure. *)
Theorem C50_boundary_no_distribution_refuted : exists m : moms RN,
  (forall eig (w : world2 RN) v (n s : R) lam, 0 <= s ->
     eig (lower (stdmom m)) = Some lam -> eigenvalues (hmat (stdmom m)) lam ->
     snd (exec2 eig w (ENewStd v (n : RN) (s : RN) m (0 : RN))) = Ret tt) /\
  ~ exists (P : prob) (Z : Om P -> R), daniell P /\ moments_of (stdmom m) P Z.
Proof. exact C50_boundary_no_distribution_refuted_proof. Qed.
Print Assumptions C50_boundary_no_distribution_refuted.
Example C50_measure_case : daniell coin.
Proof. exact coin_daniell. Qed.
Theorem C50_positive_definite_partial : forall m : moms RN,
  (forall x, (exists i, (i < 5)%nat /\ x i <> 0) -> 0 < mform (hmat (stdmom m)) x) ->
  exists pts : list (R * R), length pts = 5%nat /\ (forall p, In p pts -> 0 <= fst p) /\
    forall k, (k <= 8)%nat -> rsum pts (fun p => fst p * snd p ^ k) = stdmom m k.
Proof. exact C50_positive_definite_partial_proof. Qed.
Print Assumptions C50_positive_definite_partial.
(** The standard normal distribution. *)
Example C50_case : forall x, (exists i, (i < 5)%nat /\ x i <> 0) -> 0 < mform (hmat (stdmom (normal_moments (N := RN)))) x.
Proof.
  intros x (i & Hi & Hx).
  set (a := x 0%nat). set (b := x 1%nat). set (c := x 2%nat). set (d := x 3%nat). set (e := x 4%nat).
  assert (E : mform (hmat (stdmom (normal_moments (N := RN)))) x =
    (a + c + 3 * e) ^ 2 + (b + 3 * d) ^ 2 + 2 * (c + 6 * e) ^ 2 + 6 * d ^ 2 + 24 * e ^ 2) by (unfold mform, hmat, five; cbn; fold a b c d e; ring).
  rewrite E. assert (S := pow2_ge_0).
  assert (A := S (a + c + 3 * e)). assert (B := S (b + 3 * d)). assert (C := S (c + 6 * e)). assert (D := S d). assert (F := S e).
  assert (P : forall y, y <> 0 -> 0 < y ^ 2) by (intros y Hy; assert (0 < y * y) by nra; cbn; lra).
  destruct (Req_dec e 0) as [Ee|Ee]; [|apply P in Ee; lra]. destruct (Req_dec d 0) as [Ed|Ed]; [|apply P in Ed; lra].
  destruct (Req_dec c 0) as [Ec|Ec]; [|assert (G : c + 6 * e <> 0) by (rewrite Ee; lra); apply P in G; lra].
  destruct (Req_dec b 0) as [Eb|Eb]; [|assert (G : b + 3 * d <> 0) by (rewrite Ed; lra); apply P in G; lra].
  destruct (Req_dec a 0) as [Ea|Ea]; [|assert (G : a + c + 3 * e <> 0) by (rewrite Ec, Ee; lra); apply P in G; lra].
  exfalso. apply Hx. do 5 (destruct i as [|i]; [assumption|]). lia.
Qed.
