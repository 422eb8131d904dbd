(** * DemoUPoly: a program of +, * and a compound assignment on doubles and on its counterparts (C83) *)

From Coq Require Import List ZArith Bool Reals Lra Lia.
From Flocq Require Import Core BinarySingleNaN.
From Verif Require Import Base Num Map UReal World Ieee SpecIeee SpecMathIeee2 SpecAcc2 SpecAcc3 SpecAcc4 SpecAcc5 SpecLin IeeeProofs5 DemoIeee DemoIeee2 Demo IoAcc1 UPoly2 UPoly5 UPoly6.
From Verif Require Import SpecMathIeee2.
Import ListNotations.
Local Open Scope R_scope.

(** x = UReal(a, b); y = UReal(c, e); z = x + y; z.s(); z *= x *)
Definition uprog (M : Num) (a b c e : M) : list (call M) :=
  [CNew 0%nat a b; CNew 1%nat c e; CAdd 2%nat 0%nat 1%nat; CS 2%nat; CMulA 2%nat 0%nat].
Lemma uprog_run (N : Num) (a b c e : N) : nltb b n0 = false -> nltb e n0 = false -> neqb a n1 = false ->
  exists w, run w_init (uprog N a b c e) = Ret w /\
    coef_on (w_var w 2%nat) 1 = nadd (nmul (nmul n1 b) a) (nmul (nadd a c) b) /\ coef_on (w_var w 2%nat) 2 = nmul (nadd n0 (nmul n1 e)) a.
Proof.
  intros Hb He Ha. eexists. split.
  - unfold uprog. cbn -[u_new]. unfold u_new. cbn. rewrite Hb. cbn. rewrite He. cbn. reflexivity.
  - cbn. destruct (nltb (nopp n1) n0); cbn; rewrite Ha; cbn; split; reflexivity.
Qed.
Lemma ddemo_upoly : List.Forall upoly ddemo.
Proof. repeat constructor; vm_compute; reflexivity. Qed.
Lemma ddemo_exact : map exact_ucall ddemo = uprog RN 3 1 7 2.
Proof. unfold ddemo, uprog, exact_ucall, ucall_on, d. cbn [map]. rewrite !(fun z H => proj2 (dofZ_exact z H)) by lia. reflexivity. Qed.
Lemma ddemo_sized eta : map (sized_ucall eta) ddemo = uprog (sizes eta) 3 1 7 2.
Proof. unfold ddemo, uprog, sized_ucall, ucall_on, d. cbn [map]. rewrite !(fun z H => proj2 (dofZ_exact z H)) by lia. rewrite !Rabs_pos_eq by lra. reflexivity. Qed.
Lemma mul_size eta a b : a * b <> 0 -> nmul (n := sizes eta) a b = a * b + eta.
Proof. intro H. cbn. destruct (Req_EM_T (a * b) 0); [contradiction|reflexivity]. Qed.
Lemma z_ids : ids (w_var dworld 2%nat) = [1; 2]%Z.
Proof. vm_compute. reflexivity. Qed.
Lemma z_rounds : urounds ddemo 2%nat = 4%nat.
Proof. vm_compute. reflexivity. Qed.
Lemma tiny_small : 0 < tiny <= uround / 100.
Proof.
  unfold tiny, uround. split; [apply bpow_gt_0|]. apply Rle_trans with (pow2 (-60)); [apply bpow_le; lia|].
  change (-60)%Z with (-7 + -53)%Z. unfold pow2. rewrite bpow_plus. assert (P := bpow_gt_0 radix2 (-53)).
  assert (E : bpow radix2 (-7) = / 128) by (cbn; lra). rewrite E. lra.
Qed.
(** nothing cancels in (3 + 7) 3: the sizes are those of the exact coefficients 13 and 6 *)
Lemma z_no_cancellation : exists wr wb, run w_init (map exact_ucall ddemo) = Ret wr /\ run w_init (map (sized_ucall tiny) ddemo) = Ret wb /\
  coef_on (w_var wr 2%nat) 1 = 13 /\ coef_on (w_var wr 2%nat) 2 = 6 /\
  forall i, In i (ids (w_var dworld 2%nat)) -> coef_on (w_var wb 2%nat) i <= (1 + uround) * Rabs (coef_on (w_var wr 2%nat) i).
Proof.
  rewrite ddemo_exact, (ddemo_sized tiny). assert (T := tiny_small).
  destruct (uprog_run RN 3 1 7 2) as (wr & Er & A1 & A2); [apply Rltb_false; cbn; lra|apply Rltb_false; cbn; lra|cbn; unfold Reqb; destruct (Req_EM_T 3 1); [lra|reflexivity]|].
  destruct (uprog_run (sizes tiny) 3 1 7 2) as (wb & Eb & B1 & B2); [apply Rltb_false; cbn; lra|apply Rltb_false; cbn; lra|reflexivity|].
  exists wr, wb. split; [exact Er|]. split; [exact Eb|]. 
  assert (E1 : coef_on (w_var wr 2%nat) 1 = 13) by (rewrite A1; cbn; lra). assert (E2 : coef_on (w_var wr 2%nat) 2 = 6) by (rewrite A2; cbn; lra).
  split; [exact E1|]. split; [exact E2|]. rewrite z_ids. intros i [<-|[<-|[]]].
  - rewrite E1, Rabs_pos_eq, B1 by lra. change (n1 (n := sizes tiny)) with 1. change (nadd (n := sizes tiny)) with Rplus.
    clear - T. revert T. generalize tiny. intros t T. rewrite (mul_size t 1 1) by lra. rewrite (mul_size t (1 * 1 + t) 3) by lra. rewrite (mul_size t (3 + 7) 1) by lra. lra.
  - rewrite E2, Rabs_pos_eq, B2 by lra. change (n1 (n := sizes tiny)) with 1. change (n0 (n := sizes tiny)) with 0. change (nadd (n := sizes tiny)) with Rplus.
    clear - T. revert T. generalize tiny. intros t T. rewrite (mul_size t 1 2) by lra. rewrite (mul_size t (0 + (1 * 2 + t)) 3) by lra. lra.
Qed.
Lemma z_spec : let r := s_var (exact_run ddemo) 2%nat in l_mean r = 30 /\ l_coef r 1 = 13 /\ l_coef r 2 = 6 /\
  forall i, l_coef (s_var (size_run tiny ddemo) 2%nat) i <= (1 + uround) * Rabs (l_coef r i).
Proof.
  destruct z_no_cancellation as (wr & wb & Er & Eb & A1 & A2 & H).
  destruct (all_specs ddemo ddemo_legal ddemo_upoly) as (w & wr' & wa & wb' & Ed & Er' & _ & Eb' & _ & _ & _ & _ & _ & _ & Rr & _ & Rb & _ & Zr).
  rewrite ddemo_run in Ed. rewrite Er in Er'. rewrite Eb in Eb'. injection Ed as <-. injection Er' as <-. injection Eb' as <-.
  cbv zeta. rewrite <- !(rep_coef_on _ _ _ _ (Rr 2%nat)). split; [|split; [exact A1|split; [exact A2|]]].
  - unfold exact_run. rewrite ddemo_exact. cbn. repeat (destruct (Rlt_dec _ _); [exfalso; lra|]). cbn. lra.
  - intro i. rewrite <- (rep_coef_on _ _ _ i (Rr 2%nat)), <- (proj2 (Rb 2%nat) i). destruct (in_dec Z.eq_dec i (ids (w_var dworld 2%nat))) as [Hi|Hi]; [exact (H i Hi)|].
    destruct (Zr 2%nat i Hi) as (_ & -> & ->). rewrite Rabs_R0. lra.
Qed.
