(** * RelProg2: relative errors of programs whose sums do not cancel (C87), theorems *)

From Coq Require Import List ZArith Bool Reals Lra Lia Psatz.
From Coquelicot Require Import Coquelicot.
From Flocq Require Import Core BinarySingleNaN.
From Verif Require Import Base Num Map UReal World URealFacts Sums SpecLin SpecObs URealR URealProofs URealProofs2 SpecCast ConvProofs.
From Verif Require Import Ieee IeeeFacts SpecIeee IeeeProofs IeeeProofs2 IeeeProofs3 IeeeProofs4 IeeeProofs5 IeeeCov IeeeCorr SpecMathIeee IeeeRel SpecMathIeee2 MathAcc6 IoAcc1 SpecAcc2 Track AccMom2 SpecAcc3 PolyAcc3 SpecAcc4 SpecAcc5 UPoly UPoly2 UPoly4 UPoly6 SpecRel RelProg.
Import ListNotations.
Local Open Scope R_scope.

Lemma nonneg_ltb (s : double) : finite s -> 0 <= real_of s -> nltb (n := DN) s n0 = false.
Proof.
  intros F H. change (Bltb s (B754_zero false : double) = false). rewrite Bltb_correct; [|exact F|reflexivity]. apply Rlt_bool_false. exact H.
Qed.
Lemma new_step s : is_new (exact_step s) = true -> is_new (call_of s) = true.
Proof. destruct s as [c|]; [destruct c|]; cbn; auto. Qed.
Lemma nary_step w s : tame w s -> nary_ok (call_of s).
Proof. destruct s as [c|]; [destruct c|]; cbn; tauto. Qed.
Lemma self_step w s : tame w s -> self_assign (call_of s) = false.
Proof.
  destruct s as [c|]; [destruct c|]; cbn; try tauto; intros [N _]; now apply Nat.eqb_neq.
Qed.
Lemma put_set k v n (w : world DN) (sw : sworld) x a : (forall u, drep (k u) (w_var w u) (s_var sw u)) -> drep n x a ->
  forall u, drep (put k v n u) (w_var (w_set w v x) u) (s_var (s_set sw v a) u).
Proof. intros H Hx u. rewrite put_eq. cbn. unfold upd. destruct (Nat.eqb u v); auto. Qed.
Lemma drep_mean k k' (x : ureal DN) a (n : double) m : drep k x a -> nr k' n m -> (k' <= k)%nat -> drep k (u_change_nom (N := DN) x n) (mkLin m (l_dep a) (l_coef a)).
Proof. intros (_ & D & C) M K. split; [apply (near_weaken ur ur_ok k'); assumption|]. split; [exact D|exact C]. Qed.
Lemma rel_exec (w : world DN) sw f s : tame sw s -> (forall v, (rel_rounded f s v <= 900)%nat) -> wwf w -> (w_last w + (if is_new (call_of s) then 1 else 0) < maxid)%Z ->
  w_last w = s_last sw -> (forall v, drep (f v) (w_var w v) (s_var sw v)) ->
  let w' := fst (exec w (call_of s)) in let sw' := spec_exec sw (exact_step s) in
  w_last w' = s_last sw' /\ forall v, drep (rel_rounded f s v) (w_var w' v) (s_var sw' v).
Proof.
  intros T K [Lw W] B El H. assert (L : (w_last w < maxid)%Z) by (destruct (is_new (call_of s)); lia).
  assert (Set_ : forall v n x a, drep n x a -> w_last (w_set w v x) = s_last (s_set sw v a) /\ forall u, drep (put f v n u) (w_var (w_set w v x) u) (s_var (s_set sw v a) u)).
  { intros v n x a D. split; [exact El|]. now apply put_set. }
  assert (Bin : forall v x y n mu dx dy r, both (w_var w x) (w_var w y) n mu dx dy r ->
    let q := fst (assign_result w v (u_binary (N := DN) (w_var w x) (w_var w y) mu dx dy)) in let s := s_set sw v r in
    w_last q = s_last s /\ forall u, drep (put f v n u) (w_var q u) (s_var s u)).
  { intros v x y n mu dx dy r [(z & E & D) _]. rewrite E. cbn [assign_result fst]. now apply Set_. }
  assert (Asg : forall v x n mu dx dy r, v <> x -> both (w_var w v) (w_var w x) n mu dx dy r ->
    let q := w_set w v (u_assign_gen (N := DN) (Nat.eqb v x) (w_var w v) (w_var w x) mu dx dy) in let s := s_set sw v r in
    w_last q = s_last s /\ forall u, drep (put f v n u) (w_var q u) (s_var s u)).
  { intros v x n mu dx dy r N [_ D]. rewrite (proj2 (Nat.eqb_neq v x) N). now apply Set_. }
  assert (Sc : forall v, w_last (w_set w v (snd (u_s_caching (w_var w v)))) = s_last sw /\ forall u, drep (f u) (w_var (w_set w v (snd (u_s_caching (w_var w v)))) u) (s_var sw u)).
  { intro v. split; [exact El|]. intro u. cbn [w_set w_var]. unfold upd. destruct (Nat.eqb_spec u v) as [->|]; [|apply H].
    destruct (s_caching_wf (N := DN) (w_last w) (w_var w v) (W v)) as (_ & F & Ms & _). destruct (H v) as (M & D & C). split; [rewrite Ms; exact M|]. split; [intro i; rewrite F; apply D|].
    intro i. rewrite coef_ufind, F, <- coef_ufind. apply C. }
  destruct s as [c|v x].
  2:{ specialize (K v). cbn [rel_rounded] in K. rewrite put_eq, Nat.eqb_refl in K. cbn [call_of exact_step exec fst spec_exec rel_rounded]. apply Set_. exact (op_sqrt (w_last w) _ _ (f x) (W x) (H x) K T). }
  destruct c; cbn [tame] in T; try contradiction; cbn [rel_rounded] in K; cbn [call_of is_new] in B; cbn [call_of exact_step exact_ucall ucall_on exec spec_exec rel_rounded fst snd].
  - destruct T as (Fn & Fs & Ps). destruct (new_wf (N := DN) (w_last w) n s) as (E1 & _ & E2); [lia|].
    destruct (u_new (N := DN) (w_last w) n s) as [l o]. cbn [fst snd] in E1, E2. subst l o. rewrite (nonneg_ltb s Fs Ps). cbn [assign_result fst].
    destruct (Rlt_dec (real_of s) 0) as [C|_]; [exfalso; apply (Rlt_not_le _ _ C Ps)|]. split; [cbn; now rewrite El|].
    apply (put_set f v 0 (mkW (w_last w + 1) (w_var w)) (mkS (s_last sw + 1) (s_var sw))); [exact H|]. rewrite El. split; [now apply (near_exact ur)|].
    assert (Lp : (0 < s_last sw + 1)%Z) by lia.
    assert (Fi : forall i, ufind (N := DN) i (mkU (s_last sw + 1) s n []) = if (i =? s_last sw + 1)%Z then Some s else None) by (intro i; unfold ufind; cbn [uid usdev]; now rewrite (proj2 (Z.ltb_lt _ _) Lp)).
    split.
    + intro i. rewrite Fi. cbn [lin_fresh l_dep]. destruct (Z.eqb_spec i (s_last sw + 1)); split; congruence.
    + intro i. rewrite coef_ufind, Fi. cbn [lin_fresh l_coef]. destruct (Z.eqb_spec i (s_last sw + 1)), (Z.eq_dec i (s_last sw + 1)); try contradiction; [now apply (near_exact ur)|apply zero_near].
  - apply Set_. split; [now apply (near_exact ur)|]. split; [intro i; cbn; intuition congruence|]. intro i. apply zero_near.
  - apply Set_. split; [apply zero_near|]. split; [intro i; cbn; intuition congruence|]. intro i. apply zero_near.
  - apply Set_. apply H.
  - apply Set_. apply (drep_mean _ 0); [apply H|now apply (near_exact ur)|lia].
  - apply Set_. unfold u_neg. apply (drep_unary _ (f x) (w_last w)); [apply W|apply H|apply near_opp, H|]. intros i c C. rewrite dmul_comm. apply near_sign; try apply minus_ok; [rewrite Rabs_left; lra|exact C].
  - specialize (K v). rewrite put_eq, Nat.eqb_refl in K. apply (Bin v x y). apply (op_add (w_last w)); auto.
  - specialize (K v). rewrite put_eq, Nat.eqb_refl in K. apply (Bin v x y). apply (op_sub (w_last w)); auto.
  - specialize (K v). rewrite put_eq, Nat.eqb_refl in K. apply (Bin v x y). apply (op_mul (w_last w)); auto.
  - specialize (K v). rewrite put_eq, Nat.eqb_refl in K. apply (Bin v x y). apply (op_div (w_last w)); auto.
  - destruct T as [N T]. specialize (K v). rewrite put_eq, Nat.eqb_refl in K. apply (Asg v x); [exact N|]. apply (op_add (w_last w)); auto.
  - destruct T as [N T]. specialize (K v). rewrite put_eq, Nat.eqb_refl in K. apply (Asg v x); [exact N|]. apply (op_sub (w_last w)); auto.
  - destruct T as [N T]. specialize (K v). rewrite put_eq, Nat.eqb_refl in K. apply (Asg v x); [exact N|]. apply (op_mul (w_last w)); auto.
  - destruct T as [N T]. specialize (K v). rewrite put_eq, Nat.eqb_refl in K. apply (Asg v x); [exact N|]. apply (op_div (w_last w)); auto.
  - apply Sc.
  - rewrite var_caching_snd. apply Sc.
Qed.
Lemma rel_run ss : forall (w : world DN) sw f, tame_from sw f ss -> wwf w -> (w_last w + Z.of_nat (count_new (map call_of ss)) < maxid)%Z ->
  w_last w = s_last sw -> (forall v, drep (f v) (w_var w v) (s_var sw v)) ->
  exists w', run w (map call_of ss) = Ret w' /\ w_last w' = s_last (spec_run sw (map exact_step ss)) /\
    forall v, drep (fold_left rel_rounded ss f v) (w_var w' v) (s_var (spec_run sw (map exact_step ss)) v).
Proof.
  induction ss as [|s ss IH]; intros w sw f T W B El H; [now exists w|]. destruct T as (T & K & Ts).
  assert (C : Z.of_nat (count_new (map call_of (s :: ss))) = ((if is_new (call_of s) then 1 else 0) + Z.of_nat (count_new (map call_of ss)))%Z).
  { unfold count_new. cbn [map filter]. destruct (is_new (call_of s)); cbn [length]; lia. }
  rewrite C in B. assert (Lk : (w_last w + (if is_new (call_of s) then 1 else 0) < maxid)%Z) by lia.
  destruct (gen_exec (N := DN) DN_lt00 w (call_of s) W (nary_step sw s T) Lk) as (W1 & L1 & O).
  destruct (rel_exec w sw f s T K W Lk El H) as [El1 H1].
  destruct (IH (fst (exec w (call_of s))) _ _ Ts W1 ltac:(lia) El1 H1) as (w' & E & Lw' & H').
  exists w'. split; [|split; [exact Lw'|exact H']]. cbn [map run]. destruct (exec w (call_of s)) as [q o]. cbn [fst snd] in *. destruct O as [-> | ->]; exact E.
Qed.
Lemma init_rep v : drep 0 (w_var (w_init (N := DN)) v) (s_var s_init v).
Proof. split; [apply zero_near|]. split; [intro i; cbn; intuition congruence|]. intro i. apply zero_near. Qed.
Lemma tame_self ss : forall sw f, tame_from sw f ss -> List.Forall (fun c => self_assign c = false) (map call_of ss).
Proof. induction ss as [|s ss IH]; intros sw f T; [constructor|]. destruct T as (T & _ & Ts). constructor; [exact (self_step _ _ T)|exact (IH _ _ Ts)]. Qed.
Lemma tame_legal ss : forall sw f, tame_from sw f ss -> (count_new (map call_of ss) <= max_new)%nat -> dlegal (map call_of ss).
Proof.
  intros sw f T C. split; [|exact C]. clear C. revert sw f T. induction ss as [|s ss IH]; intros sw f T; [constructor|]. destruct T as (T & _ & Ts). constructor; [exact (nary_step _ _ T)|exact (IH _ _ Ts)].
Qed.

Lemma C87_values_proof : forall ss, (count_new (map call_of ss) <= max_new)%nat -> tame_program ss ->
  exists w, run w_init (map call_of ss) = Ret w /\ w_last w = s_last (exact_steps ss) /\
  forall v, let x := w_var w v in let r := s_var (exact_steps ss) v in
    (forall i, In i (ids x) <-> l_dep r i) /\
    relative (rel_rounds ss v) (u_n x) (l_mean r) /\ forall i, relative (rel_rounds ss v) (coef_on x i) (l_coef r i).
Proof.
  intros ss C T. assert (L := tame_legal _ _ _ T C).
  destruct (rel_run ss w_init s_init (fun _ => 0%nat) T wwf_init (u_bound _ L) eq_refl init_rep) as (w & E & Lw & H).
  exists w. split; [exact E|]. split; [exact Lw|]. intros v x r. destruct (H v) as (M & D & Co). split; [|split; [exact M|exact Co]].
  assert (Wv : wf (w_last w) x) by (apply (dreach_wwf w); now exists (map call_of ss)).
  intro i. rewrite ids_ukeys, <- (ufind_keys i x (w_last w) Wv). apply D.
Qed.

Lemma rounds_bound ss : forall sw f, tame_from sw f ss -> (forall v, (f v <= 900)%nat) -> forall v, (fold_left rel_rounded ss f v <= 900)%nat.
Proof. induction ss as [|s ss IH]; intros sw f T K v; [apply K|]. destruct T as (_ & K1 & Ts). exact (IH _ _ Ts K1 v). Qed.
Lemma rsum_within {A : Type} (l : list A) (f g : A -> R) (lo hi : R) : (forall i, In i l -> lo * f i <= g i <= hi * f i) -> lo * rsum l f <= rsum l g <= hi * rsum l f.
Proof. induction l as [|a l IH]; intro H; cbn [rsum]; [lra|]. assert (P := H a (or_introl eq_refl)). assert (Q := IH (fun i Hi => H i (or_intror Hi))). lra. Qed.
Lemma coefs_nth (x : ureal DN) last c : wf last x -> In c (coefs x) -> exists i, coef_on x i = c.
Proof.
  intros W. unfold coefs, coef_on. destruct (Z.ltb_spec 0 (uid x)).
  - intros [<-|[]]. exists (uid x). now rewrite Z.eqb_refl.
  - destruct (uid x <? 0)%Z; [|contradiction]. intro Hc. apply in_map_iff in Hc as ((i & c') & <- & Hi). exists i. unfold mget. cbn [snd]. now rewrite (In_mfind _ _ _ (wf_sorted _ _ W) Hi).
Qed.
Lemma inv_sq_le2 q : / 2 <= q <= 2 -> / 4 <= q * q <= 4. Proof. nra. Qed.
Lemma C87_deviation_proof : forall ss w, (count_new (map call_of ss) <= max_new)%nat -> tame_program ss -> run w_init (map call_of ss) = Ret w ->
  forall v, let x := w_var w v in let r := s_var (exact_steps ss) v in let last := s_last (exact_steps ss) in
  let k := (2 * rel_rounds ss v + length (coefs x))%nat in
  (forall i, l_coef r i = 0 \/ pow2 (-509) <= Rabs (l_coef r i)) -> lin_var last r <= pow2 1018 ->
  relative (k + 3) (u_s x) (lin_sdev last r) /\ relative (k + 4) (u_var x) (lin_var last r).
Proof.
  intros ss w Cn T E v x r last k Nu Nv. assert (L := tame_legal _ _ _ T Cn).
  destruct (C87_values_proof ss Cn T) as (w' & E' & Lw & H). rewrite E in E'. injection E' as <-.
  destruct (H v) as (_ & _ & Co). fold x r in Co. clear H.
  assert (K9 : (rel_rounds ss v <= 900)%nat) by (apply (rounds_bound ss s_init (fun _ => 0%nat) T); intro; lia).
  assert (Wv : wf (w_last w) x) by (apply (dreach_wwf w); now exists (map call_of ss)).
  assert (Ax : forall i, finite (coef_on x i) /\ exists t, real_of (coef_on x i) = l_coef r i * t /\ within ur (rel_rounds ss v) t) by exact Co. clear Co.
  assert (NU : no_underflow (coefs x)).
  { apply Forall_forall. intros c Hc. destruct (coefs_nth x _ c Wv Hc) as (i & <-). destruct (Ax i) as (F & t & Et & Wt). split; [exact F|]. rewrite Et.
    assert (T2 := within_2 ur ur_ok (rel_rounds ss v) t ltac:(lia) Wt). destruct (Nu i) as [-> | G]; [left; ring|right]. rewrite Rabs_mult, (Rabs_pos_eq t) by lra.
    apply Rle_trans with (pow2 (-509) * / 2); [|assert (P := pow2_pos (-509)); apply Rmult_le_compat; lra].
    right. change (-509)%Z with (1 + -510)%Z. rewrite pow2_add. change (pow2 1) with 2. field. }
  assert (Sq : sum_sq (coefs x) = sum_ids last (fun i => real_of (coef_on x i) * real_of (coef_on x i))).
  { rewrite (stored_dev _ x Wv), (norm_ids (w_last w)); [|exact Wv|].
    - rewrite sqrt_sqrt; [unfold last; now rewrite Lw|]. apply rsum_nonneg. intros i _. apply Rle_0_sqr.
    - intros i Hi. rewrite coef_ufind. rewrite ids_ukeys in Hi. rewrite <- (ufind_keys i x _ Wv) in Hi. destruct (ufind i x); [exfalso; apply Hi; discriminate|reflexivity]. }
  set (j := rel_rounds ss v) in *. assert (Pj := pw_pos ur ur_ok (2 * j)).
  assert (Bd : (1 - ur) ^ (2 * j) * lin_var last r <= sum_sq (coefs x) <= / (1 - ur) ^ (2 * j) * lin_var last r).
  { rewrite Sq. apply rsum_within. intros i _. destruct (Ax i) as (_ & t & Et & Wt). rewrite Et. assert (W2 := within_mul ur ur_ok _ _ _ _ Wt Wt).
    replace (j + j)%nat with (2 * j)%nat in W2 by lia. destruct W2 as [A B]. assert (Q := Rle_0_sqr (l_coef r i)). unfold Rsqr in Q.
    replace (l_coef r i * t * (l_coef r i * t)) with (t * t * (l_coef r i * l_coef r i)) by ring. split; apply Rmult_le_compat_r; assumption. }
  assert (B4 : sum_sq (coefs x) <= 4 * lin_var last r).
  { rewrite Sq. assert (Q := rsum_within (SpecLin.ids last) (fun i => l_coef r i * l_coef r i) (fun i => real_of (coef_on x i) * real_of (coef_on x i)) 0 4). apply Q. clear Q.
    intros i _. destruct (Ax i) as (_ & t & Et & Wt). rewrite Et. assert (T2 := inv_sq_le2 t (within_2 ur ur_ok j t ltac:(lia) Wt)). assert (Q := Rle_0_sqr (l_coef r i)). unfold Rsqr in Q.
    replace (l_coef r i * t * (l_coef r i * t)) with (t * t * (l_coef r i * l_coef r i)) by ring. split; [rewrite Rmult_0_l; apply Rmult_le_pos; lra|apply Rmult_le_compat_r; lra]. }
  assert (P20 : pow2 1020 = 4 * pow2 1018) by (change 1020%Z with (2 + 1018)%Z; now rewrite pow2_add).
  destruct (C57_accuracy_proof _ w L (tame_self _ _ _ T) E v NU ltac:(fold x; lra)) as (F1 & F2 & S1 & S2). fold x in F1, F2, S1, S2.
  set (n := length (coefs x)) in *. assert (V0 : 0 <= lin_var last r) by (apply rsum_nonneg; intros i _; apply Rle_0_sqr).
  assert (G : forall m q, (1 - ur) ^ m * sum_sq (coefs x) <= q <= (1 + ur) ^ m * sum_sq (coefs x) -> exists t, q = lin_var last r * t /\ within ur (2 * j + m) t).
  { intros m q [Q1 Q2]. assert (Pm := pw_pos ur ur_ok m). assert (U := ur_small).
    assert (Pi : (1 + ur) ^ m <= / (1 - ur) ^ m).
    { rewrite Rinv_pow by lra. apply pow_incr. split; [lra|]. apply Rmult_le_reg_r with (1 - ur); [lra|]. rewrite Rinv_l by lra. nra. }
    assert (S0 : 0 <= sum_sq (coefs x)) by (eapply Rle_trans; [|apply Bd]; apply Rmult_le_pos; lra).
    assert (Pm' : 0 < (1 + ur) ^ m) by (apply pow_lt; lra).
    assert (Pi' := Rinv_0_lt_compat _ Pm). assert (Pj' := Rinv_0_lt_compat _ Pj).
    destruct (Req_dec (lin_var last r) 0) as [Z|N].
    - rewrite Z, !Rmult_0_r in Bd. assert (Z' : sum_sq (coefs x) = 0) by lra. rewrite Z', !Rmult_0_r in *. exists 1. split; [lra|apply (within_one ur ur_ok)].
    - exists (q / lin_var last r). split; [field; exact N|]. assert (Vp : 0 < lin_var last r) by lra. split.
      + rewrite pow_add. apply Rmult_le_reg_r with (lin_var last r); [exact Vp|]. unfold Rdiv. rewrite (Rmult_assoc q), Rinv_l, Rmult_1_r by exact N.
        eapply Rle_trans; [|exact Q1]. replace ((1 - ur) ^ (2 * j) * (1 - ur) ^ m * lin_var last r) with ((1 - ur) ^ m * ((1 - ur) ^ (2 * j) * lin_var last r)) by ring. apply Rmult_le_compat_l; [lra|apply Bd].
      + rewrite pow_add, Rinv_mult_distr by lra. apply Rmult_le_reg_r with (lin_var last r); [exact Vp|]. unfold Rdiv. rewrite (Rmult_assoc q), Rinv_l, Rmult_1_r by exact N.
        eapply Rle_trans; [exact Q2|]. replace (/ (1 - ur) ^ (2 * j) * / (1 - ur) ^ m * lin_var last r) with (/ (1 - ur) ^ m * (/ (1 - ur) ^ (2 * j) * lin_var last r)) by ring.
        apply Rmult_le_compat; [lra|exact S0|exact Pi|apply Bd]. }
  split.
  - destruct (G _ _ S1) as (t & Et & Wt). split; [exact F1|]. exists (sqrt t). assert (Tp := within_pos ur ur_ok _ _ Wt). split.
    + unfold lin_sdev. rewrite <- sqrt_mult_alt by exact V0. rewrite <- Et. symmetry. apply sqrt_square. now apply s_nonneg.
    + replace (k + 3)%nat with (2 * j + (n + 3))%nat by (unfold k; lia). exact (within_sqrt ur ur_ok _ _ Wt).
  - destruct (G _ _ S2) as (t & Et & Wt). split; [exact F2|]. exists t. split; [exact Et|]. replace (k + 4)%nat with (2 * j + (n + 4))%nat by (unfold k; lia). exact Wt.
Qed.
(** The step Sqrt is the sqrt of math.hpp. *)
Lemma C87_sqrt_step_proof : forall (w : world DN) v x, exec w (call_of (Sqrt v x)) = (w_set w v (Math.g_sqrt (N := DN) (w_var w x)), Ret tt).
Proof. reflexivity. Qed.
