(** * MomNew: the statistics of a freshly constructed variable *)

From Coq Require Import List ZArith Bool Reals Lra Lia.
From Verif Require Import Base Num Map UReal World HessGrad Moments CheckMoments UReal2 World2 U2World SpecObs SpecU2Run SpecU2 SpecMom URealR MomCode U2Proofs U2Proofs2.
Import ListNotations.
Local Open Scope R_scope.

Section Fresh.
  Variables (id : Z) (g : R) (m : moms RN).
  Let h : hessgrad RN := hg_diag id (fun _ => mkD (g : RN) n0 (Some m)) hg_empty.

  Lemma fresh_m1 : compute_mom h 1 = Ret (0 : RN).
  Proof. subst h. lazy -[IZR pow Rmult Rplus Rminus Ropp Z.eqb v3 v4 v5 v6 v7 v8]; refine (f_equal (@Ret R) _). ring. Qed.
  Lemma fresh_m2 : compute_m2 h = Ret (g ^ 2 : RN).
  Proof. subst h. lazy -[IZR pow Rmult Rplus Rminus Ropp Z.eqb v3 v4 v5 v6 v7 v8]; refine (f_equal (@Ret R) _). ring. Qed.
  Lemma fresh_m3 : compute_m3 h = Ret (v3 m * g ^ 3 : RN).
  Proof. subst h. lazy -[IZR pow Rmult Rplus Rminus Ropp Z.eqb v3 v4 v5 v6 v7 v8]; refine (f_equal (@Ret R) _). ring. Qed.
  Lemma fresh_m4 : compute_m4 h = Ret (v4 m * g ^ 4 : RN).
  Proof.
    subst h. lazy -[IZR pow Rmult Rplus Rminus Ropp Z.eqb v3 v4 v5 v6 v7 v8]; refine (f_equal (@Ret R) _).
    rewrite ?Z.eqb_refl. ring.
  Qed.

  Lemma fresh_moments n : let x := mkU2 (N := RN) h n in
    u2_m x 1 = Ret (0 : RN) /\ u2_m x 2 = Ret (g ^ 2 : RN) /\ u2_m x 3 = Ret (v3 m * g ^ 3 : RN) /\ u2_m x 4 = Ret (v4 m * g ^ 4 : RN).
  Proof.
    intro x. unfold u2_m, update_mom. subst x.
    cbn [u2hg Z.leb Z.eqb andb Z.compare Pos.compare Pos.compare_cont assert_ bind Pos.eqb Z.add Pos.add Pos.succ].
    rewrite fresh_m1. cbn [bind].
    unfold compute_mom. cbn [u2hg Z.leb Z.eqb andb Z.compare Pos.compare Pos.compare_cont assert_ bind Pos.eqb Z.add Pos.add Pos.succ].
    rewrite fresh_m2, fresh_m3, fresh_m4. cbn [bind].
    repeat split; refine (f_equal (@Ret R) _); cbn [nadd nsub nmul nofZ RN T]; change (@n0 RN) with 0; ring.
  Qed.

  Lemma fresh_stats n : let x := mkU2 (N := RN) h n in 0 < g ->
    u2_s x = Ret (g : RN) /\ u2_skew x = Ret (v3 m) /\ u2_kurt x = Ret (v4 m).
  Proof.
    intros x Hg. destruct (fresh_moments n) as (E1 & E2 & E3 & E4). fold x in E1, E2, E3, E4.
    assert (S : u2_s x = Ret (g : RN)).
    { unfold u2_s. rewrite E2. cbn [bind]. refine (f_equal (@Ret R) _). cbn [nsqrt RN]. rewrite <- (sqrt_pow2 g) at 2 by lra. reflexivity. }
    split; [exact S|]. split.
    - unfold u2_skew. rewrite E3. cbn [bind]. rewrite S. cbn [bind]. rewrite E2. cbn [bind]. refine (f_equal (@Ret R) _).
      cbn [nadd nsub nmul ndiv nofZ RN T]. field. lra.
    - unfold u2_kurt. rewrite E2. cbn [bind]. rewrite E4. cbn [bind]. refine (f_equal (@Ret R) _).
      cbn [nadd nsub nmul ndiv nofZ RN T]. field. lra.
  Qed.

  Lemma fresh_n n p : u2_n p (mkU2 (N := RN) h n) = Ret (n : RN).
  Proof.
    unfold u2_n. rewrite (proj1 (fresh_moments n)). cbn [bind u2mu]. refine (f_equal (@Ret R) _).
    cbn [nadd nsub nmul ndiv nofZ RN T]. ring.
  Qed.
End Fresh.

Lemma C30_constructor_standardized_proof : forall eig (w : world2 RN) v n s (m : moms RN) thr,
  snd (exec2 eig w (ENewStd v n s m thr)) = Ret tt -> 0 < s ->
  let x := w2_var (fst (exec2 eig w (ENewStd v n s m thr))) v in
  u2_first_order_n x = n /\ (forall p, u2_n p x = Ret n) /\ u2_s x = Ret s /\
  u2_m x 1 = Ret 0 /\ u2_m x 2 = Ret (s ^ 2) /\ u2_m x 3 = Ret (v3 m * s ^ 3) /\ u2_m x 4 = Ret (v4 m * s ^ 4) /\
  u2_skew x = Ret (v3 m) /\ u2_kurt x = Ret (v4 m).
Proof.
  intros eig w v n s m thr Ho Hs. cbn [exec2] in *. unfold u2_new_std in *. destruct (nltb s n0); [discriminate|].
  destruct (if negb _ then _ else _) as [[]| | |]; cbn [assign2 fst snd] in *; try discriminate.
  cbn [w2_var]. unfold upd2. rewrite Nat.eqb_refl.
  destruct (fresh_moments (wrap32 (w2_last w + 1)) s m n) as (A & B & C & D).
  destruct (fresh_stats (wrap32 (w2_last w + 1)) s m n Hs) as (E & F & G).
  split; [reflexivity|]. split; [intro p; apply fresh_n|]. repeat (split; [assumption|]). exact G.
Qed.

Lemma C30_constructor_central_proof : forall eig (w : world2 RN) v n (c : cmoms RN) thr,
  snd (exec2 eig w (ENew v n c thr)) = Ret tt -> 0 < c2nd c ->
  let x := w2_var (fst (exec2 eig w (ENew v n c thr))) v in
  u2_first_order_n x = n /\ (forall p, u2_n p x = Ret n) /\ u2_s x = Ret (sqrt (c2nd c)) /\
  u2_m x 1 = Ret 0 /\ u2_m x 2 = Ret (c2nd c) /\ u2_m x 3 = Ret (v3 (cnext c)) /\ u2_m x 4 = Ret (v4 (cnext c)) /\
  u2_skew x = Ret (v3 (cnext c) / sqrt (c2nd c) ^ 3) /\ u2_kurt x = Ret (v4 (cnext c) / c2nd c ^ 2).
Proof.
  intros eig w v n c thr Ho Hc. cbn [exec2] in *. unfold u2_new in *.
  destruct (if negb _ then _ else _) as [[]| | |]; cbn [assign2 fst snd] in *; try discriminate.
  cbn [w2_var]. unfold upd2. rewrite Nat.eqb_refl.
  assert (P : 0 < sqrt (c2nd c)) by now apply sqrt_lt_R0.
  assert (Q : sqrt (c2nd c) ^ 2 = c2nd c) by (cbn; rewrite Rmult_1_r; apply sqrt_sqrt; left; exact Hc).
  assert (G : Rltb 0 (sqrt (c2nd c)) = true) by now apply Rltb_true.
  cbn [nltb n0 nofZ nsqrt RN] in *. change (@n0 RN) with 0 in *. change (nsqrt (c2nd c)) with (sqrt (c2nd c)) in *.
  change (nltb (n := RN) 0 (sqrt (c2nd c))) with (Rltb 0 (sqrt (c2nd c))). rewrite G.
  match goal with |- context[Some ?mm] => set (m := mm) end.
  destruct (fresh_moments (wrap32 (w2_last w + 1)) (sqrt (c2nd c)) m n) as (A & B & C & D).
  destruct (fresh_stats (wrap32 (w2_last w + 1)) (sqrt (c2nd c)) m n P) as (E & F & H).
  assert (V3 : (v3 m : R) = v3 (cnext c) / sqrt (c2nd c) ^ 3).
  { subst m. cbn [v3]. unfold Rdiv. cbn [ndiv nmul RN]. unfold Rdiv. f_equal. f_equal. change (T RN) with R. transitivity (sqrt (c2nd c) ^ 2 * sqrt (c2nd c)); [rewrite Q; ring|ring]. }
  assert (V4 : (v4 m : R) = v4 (cnext c) / c2nd c ^ 2).
  { subst m. cbn [v4]. unfold Rdiv. cbn [ndiv nmul RN]. unfold Rdiv. f_equal. f_equal. change (T RN) with R. transitivity (c2nd c * (sqrt (c2nd c) ^ 2)); [ring|rewrite Q; ring]. }
  change (@n0 RN) with 0 in A, B, C, D, E, F, H. rewrite B, C, D, E, F, H.
  split; [reflexivity|]. split; [intro p; apply fresh_n|]. split; [reflexivity|]. split; [exact A|].
  rewrite V3, V4. set (q := sqrt (c2nd c)) in *.
  split; [refine (f_equal (@Ret R) Q)|].
  split; [refine (f_equal (@Ret R) _); field; lra|].
  split; [refine (f_equal (@Ret R) _)|]; [|split; reflexivity].
  transitivity (v4 (cnext c) / c2nd c ^ 2 * (q ^ 2) ^ 2); [ring|]. rewrite Q. field. lra.
Qed.
