(** * URealsAcc3: ureals on doubles, invalid input and cases (C72) *)

From Coq Require Import List ZArith Bool Reals Lra Lia Psatz.
From Flocq Require Import Core BinarySingleNaN.
From Verif Require Import Base Num Map UReal World Sums SpecLin SpecObs URealFacts URealProofs Stat StatProofs UReals SpecLDLT
  URealsProofs Ieee IeeeFacts SpecIeee SpecIeee2 IeeeProofs IeeeProofs2 IeeeProofs3 IeeeProofs4 IeeeProofs5 IeeeCov IeeeCov2 SpecMathIeee IeeeRel
  SpecLDLTIeee URealsAcc URealsAcc2.
Import ListNotations.
Local Open Scope R_scope.

Lemma dnt_x D m : forall k last x, no_throw (snd (ureals_x (N := DN) D (seq k m) last x)).
Proof.
  induction m as [|m IH]; intros k last x; [apply nt_ret|].
  cbn [seq ureals_x nleb DN n0]. destruct (Bleb dzero (D k)); [|intros e E; discriminate].
  unfold u_new. cbn [nltb DN n0 nsqrt usdev]. assert (Q := nonneg_sqrt (D k)). unfold nonneg in Q. rewrite Q. apply IH.
Qed.
Lemma dx_assert D m : forall k last x i, (k <= i < k + m)%nat -> Bleb dzero (D i) = false ->
  snd (ureals_x (N := DN) D (seq k m) last x) = Assert.
Proof.
  induction m as [|m IH]; intros k last x i Hi H; [lia|].
  cbn [seq ureals_x nleb DN n0]. destruct (Bleb dzero (D k)) eqn:E; [|reflexivity].
  unfold u_new. cbn [nltb DN n0 nsqrt usdev]. assert (Q := nonneg_sqrt (D k)). unfold nonneg in Q. rewrite Q.
  apply (IH _ _ _ i); [|exact H]. destruct (Nat.eq_dec i k) as [->|N]; [congruence|lia].
Qed.

Lemma C72_validates_proof : forall eigen last (mu cov : list DN),
  let n := length mu in
  let result := ureals eigen last mu cov in
  (snd result = Throw InvalidArgument <-> length cov <> (n * n)%nat) /\
  (snd result = Throw RuntimeError <->
     length cov = (n * n)%nat /\ (0 < n)%nat /\
     exists V, ureals_V n cov = Ret V /\ (ld_ok (eigen n V) = false \/ ld_pos (eigen n V) = false)) /\
  ((exists e, snd result = Throw e) -> fst result = last) /\
  (length cov = (n * n)%nat -> forall V, ureals_V n cov = Ret V -> ld_ok (eigen n V) = true -> ld_pos (eigen n V) = true ->
     (exists k, (k < n)%nat /\ Bleb dzero (ld_D (eigen n V) k) = false) -> snd result = Assert).
Proof.
  intros eigen last mu cov n result. unfold result, ureals. fold n. rewrite size_check.
  destruct (Nat.eqb_spec (length cov) (n * n)) as [HL|HL]; cbn [negb].
  - destruct (Nat.eqb_spec n 0) as [Hn|Hn].
    + cbn [snd fst]. split; [split; [discriminate|congruence]|].
      split; [split; [discriminate|lia]|]. split; [intros [e E]; reflexivity|]. intros _ V _ _ _ (k & Hk & _). lia.
    + rewrite ureals_V_ok by exact HL.
      set (V := map _ _). destruct (ld_ok (eigen n V)) eqn:Ok; cbn [negb].
      * destruct (ld_pos (eigen n V)) eqn:Ps; cbn [negb].
        -- destruct (ureals_x (ld_D (eigen n V)) (seq 0 n) last []) as [last' ox] eqn:Ex. cbn [snd fst].
           assert (NT : no_throw (x <- ox;; out <- omapM (ureals_row (ld_L (eigen n V)) x) (seq 0 n);;
                          out <- ureals_permute (ld_T (eigen n V)) n out;; ureals_shift mu n out)).
           { apply nt_bind.
             - assert (K := dnt_x (ld_D (eigen n V)) n 0 last []). rewrite Ex in K. exact K.
             - intro x. apply nt_bind; [apply nt_omapM; intro; apply nt_row|]. intro.
               apply nt_bind; [apply nt_permute|]. intro. apply nt_shift. }
           split; [split; [intro E; now apply NT in E|congruence]|].
           split.
           { split; [intro E; now apply NT in E|]. intros (_ & _ & V' & EV & [F|F]); injection EV as <-; congruence. }
           split; [intros [e E]; now apply NT in E|]. intros _ V' EV _ _ (k & Hk & F). injection EV as <-.
           assert (K := dx_assert (ld_D (eigen n V)) n 0 last [] k ltac:(lia) F). rewrite Ex in K. cbn [snd] in K. rewrite K. reflexivity.
        -- cbn [snd fst]. split; [split; [discriminate|congruence]|].
           split; [split; [intros _|reflexivity]|split; [reflexivity|]].
           { split; [exact HL|]. split; [lia|]. exists V. auto. }
           intros _ V' EV _ P _. injection EV as <-. congruence.
      * cbn [snd fst]. split; [split; [discriminate|congruence]|].
        split; [split; [intros _|reflexivity]|split; [reflexivity|]].
        { split; [exact HL|]. split; [lia|]. exists V. auto. }
        intros _ V' EV O _ _. injection EV as <-. congruence.
  - cbn [snd fst]. split; [tauto|]. split; [split; [discriminate|tauto]|].
    split; [reflexivity|]. intros E. congruence.
Qed.

(** ** Cases *)
Definition quarter : double := ddiv (dofZ 1) (dofZ 4).
Definition half : double := ddiv (dofZ 1) (dofZ 2).
Definition two_ldlt : ldlt DN :=
  mkLDLT (N := DN) true true (fun _ _ => quarter) (fun k => if Nat.eqb k 0 then dofZ 8 else half) (fun _ => 1%nat).
Definition two_cov : list DN := [dofZ 1; dofZ 2; dofZ 2; dofZ 8].
Lemma two_case : decomposes_up_to 2 (fun i j => real_of (nth (2 * i + j) two_cov dzero)) (fun _ _ => 0) two_ldlt.
Proof.
  assert (Eq : real_of quarter = / 4) by (realval; lra). assert (Eh : real_of half = / 2) by (realval; lra).
  assert (E8 : real_of (dofZ 8) = 8) by (realval; lra). assert (E2 : real_of (dofZ 2) = 2) by (realval; lra).
  assert (E1 : real_of (dofZ 1) = 1) by (realval; lra).
  assert (B : pow2 10 <= pow2 1000) by (apply bpow_le; lia). assert (B10 : pow2 10 = 1024) by reflexivity.
  split; [|split; [|split; [|split]]].
  - intros; cbn; lia.
  - intros [|k] Hk; cbn [two_ldlt ld_D Nat.eqb]; rewrite ?E8, ?Eh; (split; [reflexivity|lra]).
  - intros i k Hk. cbn [two_ldlt ld_L ld_D]. split; [reflexivity|]. destruct k as [|k]; [|lia]. cbn [Nat.eqb]. rewrite E8, Eq. right.
    assert (S2 : 2 <= sqrt 8 <= 3).
    { split; [rewrite <- (sqrt_square 2) by lra|rewrite <- (sqrt_square 3) by lra]; apply sqrt_le_1_alt; lra. }
    rewrite Rabs_pos_eq by lra.
    assert (L : pow2 (-1021) <= pow2 (-1)) by (apply bpow_le; lia). assert (L1 : pow2 (-1) = / 2) by reflexivity.
    assert (U : pow2 0 <= pow2 1022) by (apply bpow_le; lia). change (pow2 0) with 1 in U. split; lra.
  - intros [|[|i]] Hi; try lia; unfold product, lower, unit_lower; cbn [seq rsum Nat.ltb Nat.leb Nat.eqb two_ldlt ld_L ld_D]; rewrite ?E8, ?Eh, ?Eq; lra.
  - intros [|[|i]] [|[|j]] Hi Hj; try lia; unfold product, lower, unit_lower, row_of;
      cbn [seq fold_right rsum Nat.ltb Nat.leb Nat.eqb two_ldlt ld_L ld_D ld_T transpose Nat.mul Nat.add nth two_cov]; unfold transpose; cbn [Nat.eqb Nat.mul Nat.add nth];
      rewrite ?E8, ?Eh, ?Eq, ?E2, ?E1; apply Rabs_le; lra.
Qed.
Lemma init_reach : dreachable w_init.
Proof. exists []. split; [apply dlegal_small; [constructor|cbn; lia]|reflexivity]. Qed.

(** A variance of 2 is not reproduced exactly. *)
Lemma C72_exact_refuted_proof : exists eigen (mu cov : list DN) out C, length mu = 1%nat /\
  (forall V, ureals_V 1 cov = Ret V -> ld_ok (eigen 1%nat V) = true /\ ld_pos (eigen 1%nat V) = true /\
     decomposes_up_to 1 (fun i j => real_of (nth (1 * i + j) cov dzero)) (fun _ _ => 0) (eigen 1%nat V)) /\
  ureals eigen 0 mu cov = (1%Z, Ret out) /\ cov_matrix out = Ret C /\
  real_of (nth 0 cov dzero) < real_of (nth 0 C dzero).
Proof.
  exists (fun _ _ => mkLDLT (N := DN) true true (fun _ _ => dzero) (fun _ => dofZ 2) (fun _ => 0%nat)), [dzero], [dofZ 2].
  eexists _, _. split; [reflexivity|].
  assert (E2 : real_of (dofZ 2) = 2) by (realval; lra).
  assert (B : pow2 10 <= pow2 1000) by (apply bpow_le; lia). assert (B10 : pow2 10 = 1024) by reflexivity.
  split; [|split; [reflexivity|split; [reflexivity|]]].
  - intros V _. split; [reflexivity|]. split; [reflexivity|]. split; [|split; [|split; [|split]]].
    + intros; cbn; lia.
    + intros k Hk. cbn [ld_D]. rewrite E2. split; [reflexivity|lra].
    + intros i k Hk. lia.
    + intros [|i] Hi; try lia. unfold product, lower, unit_lower; cbn [seq rsum Nat.ltb Nat.leb Nat.eqb ld_L ld_D]; rewrite ?E2. lra.
    + intros [|i] [|j] Hi Hj; try lia. unfold product, lower, unit_lower, row_of;
      cbn [seq fold_right rsum Nat.ltb Nat.leb Nat.eqb ld_L ld_D ld_T]; unfold transpose; cbn [Nat.eqb Nat.mul Nat.add nth];
      rewrite ?E2; apply Rabs_le; lra.
  - cbn [nth]. rewrite E2. realval. lra.
Qed.
