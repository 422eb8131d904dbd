(** * FunProofs: errors of the numerical derivatives of functions.hpp (C24) *)

From Coq Require Import List ZArith Bool Reals Lra Lia.
From Coquelicot Require Import Coquelicot.
From Verif Require Import Base Num Map UReal World Sums SpecLin SpecObs URealFacts URealR URealProofs.
From Verif Require Import SpecMath Derivs Derivs2d ADProofs MathProofs.
From Verif Require Import HessGrad Moments CheckMoments UReal2 HessProofs U2Facts World2 U2World SpecU2 U2Values U2Ret SpecU2Run U2Proofs.
From Verif Require Import Functions SpecMath2 SpecFun Math2Proofs.
Import ListNotations.
Local Open Scope R_scope.

(** ** analysis *)

(** a function with nonnegative derivative does not decrease *)
Lemma nondecr (g g1 : R -> R) h : 0 <= h -> (forall t : R, 0 <= t <= h -> is_derive g t (g1 t)) ->
  (forall t, 0 <= t <= h -> 0 <= g1 t) -> g 0 <= g h.
Proof.
  intros H D P. destruct (MVT_gen g 0 h g1) as (c & Hc & E).
  - rewrite Rmin_left, Rmax_right by lra. intros x Hx. apply D. lra.
  - rewrite Rmin_left, Rmax_right by lra. intros x Hx.
    apply continuity_pt_filterlim, (ex_derive_continuous g). exists (g1 x). apply D. lra.
  - rewrite Rmin_left, Rmax_right in Hc by lra. assert (Q := P c Hc). assert (0 <= g1 c * (h - 0)) by (apply Rmult_le_pos; lra). lra.
Qed.
(** integrate a bound *)
Lemma int_bound (g g1 : R -> R) (C : R) n h : 0 <= h -> g 0 = 0 ->
  (forall t : R, 0 <= t <= h -> is_derive g t (g1 t)) ->
  (forall t, 0 <= t <= h -> Rabs (g1 t) <= C * t ^ n) ->
  Rabs (g h) <= C / INR (S n) * h ^ S n.
Proof.
  intros H G0 D B. assert (N0 := lt_0_INR (S n) ltac:(lia)).
  assert (DP : forall s t : R, 0 <= t <= h -> is_derive (fun t => C / INR (S n) * t ^ S n + s * g t) t (C * t ^ n + s * g1 t)).
  { intros s t Ht. auto_derive; [split; [exact I || auto|eexists; apply D; exact Ht] || (eexists; apply D; exact Ht)|].
    derv (D t Ht). change (match n with O => 1 | S _ => INR n + 1 end) with (INR (S n)). field. lra. }
  assert (Z : 0 ^ S n = 0) by (cbn; ring).
  assert (U1 := nondecr _ _ h H (DP 1)). assert (U2 := nondecr _ _ h H (DP (-1))). cbv beta in U1, U2.
  rewrite G0, Z in U1, U2. apply Rabs_le. split.
  - assert (0 <= C / INR (S n) * h ^ S n + 1 * g h); [|lra].
    eapply Rle_trans; [|apply U1]; [lra|]. intros t Ht. specialize (B t Ht). apply Rabs_le_between in B. lra.
  - assert (0 <= C / INR (S n) * h ^ S n + -1 * g h); [|lra].
    eapply Rle_trans; [|apply U2]; [lra|]. intros t Ht. specialize (B t Ht). apply Rabs_le_between in B. lra.
Qed.

(** [a + t] and [a - t] *)
Lemma shift_r (f f1 : R -> R) (a t : R) : is_derive f (a + t) (f1 (a + t)) -> is_derive (fun t => f (a + t)) t (f1 (a + t)).
Proof.
  intro D. auto_derive; [eexists; exact D|]. derv D. ring.
Qed.
Lemma shift_l (f f1 : R -> R) (a t : R) : is_derive f (a - t) (f1 (a - t)) -> is_derive (fun t => f (a - t)) t (- f1 (a - t)).
Proof.
  intro D. auto_derive; [eexists; exact D|]. unfold Rminus in *. derv D. ring.
Qed.
Lemma near_r a s t : 0 <= t <= Rabs s -> near a s (a + t).
Proof. intro H. unfold near. replace (a + t - a) with t by ring. rewrite Rabs_pos_eq; lra. Qed.
Lemma near_l a s t : 0 <= t <= Rabs s -> near a s (a - t).
Proof. intro H. unfold near. replace (a - t - a) with (- t) by ring. rewrite Rabs_Ropp, Rabs_pos_eq; lra. Qed.

(** combination of f(a+t) and f(a-t): [p f(a+t) + q f(a-t) + r t^n + c] *)
Definition comb (p q : R) (f : R -> R) (a r : R) (n : nat) (c t : R) : R := p * f (a + t) + q * f (a - t) + r * t ^ n + c.
Lemma comb_derive (f f1 : R -> R) (a s p q r : R) n c : (forall t : R, near a s t -> is_derive f t (f1 t)) ->
  forall t : R, 0 <= t <= Rabs s ->
  is_derive (comb p q f a r n c) t (comb p (- q) f1 a (INR n * r) (pred n) 0 t).
Proof.
  intros D t Ht. assert (D1 := D _ (near_r a s t Ht)). assert (D2 := D _ (near_l a s t Ht)).
  unfold comb. auto_derive.
  - split; [eexists; exact D1|]. split; [eexists; exact D2|auto].
  - derv D1. unfold Rminus in *. derv D2. ring.
Qed.
Lemma comb_bound (f f1 : R -> R) (a s p q r : R) n c C k : (forall t : R, near a s t -> is_derive f t (f1 t)) ->
  comb p q f a r n c 0 = 0 ->
  (forall t, 0 <= t <= Rabs s -> Rabs (comb p (- q) f1 a (INR n * r) (pred n) 0 t) <= C * t ^ k) ->
  forall t, 0 <= t <= Rabs s -> Rabs (comb p q f a r n c t) <= C / INR (S k) * t ^ S k.
Proof.
  intros D Z B t Ht.
  apply (int_bound (comb p q f a r n c) (comb p (- q) f1 a (INR n * r) (pred n) 0)); [lra|exact Z| |].
  - intros u Hu. apply (comb_derive f f1 a s); [exact D|lra].
  - intros u Hu. apply B. lra.
Qed.
Lemma sum_bound (f : R -> R) a s M p q r c t : bounded_on (near a s) f M -> Rabs p <= 1 -> Rabs q <= 1 -> r = 0 -> c = 0 ->
  0 <= t <= Rabs s -> Rabs (comb p q f a r 0 c t) <= (Rabs p + Rabs q) * M.
Proof.
  intros B Hp Hq -> -> Ht. unfold comb. rewrite Rmult_0_l, !Rplus_0_r.
  eapply Rle_trans; [apply Rabs_triang|]. rewrite !Rabs_mult, Rmult_plus_distr_r.
  apply Rplus_le_compat; apply Rmult_le_compat_l; try apply Rabs_pos; apply B; [now apply near_r|now apply near_l].
Qed.

Lemma abs_cases s : s <> 0 -> (0 < s /\ Rabs s = s) \/ (s < 0 /\ Rabs s = - s).
Proof. intro H. destruct (Rle_lt_dec s 0); [right; split; [lra|apply Rabs_left; lra]|left; split; [lra|apply Rabs_pos_eq; lra]]. Qed.

Lemma div_bound a b C : 0 < b -> Rabs a <= C * b -> Rabs (a / b) <= C.
Proof.
  intros Hb H. unfold Rdiv. rewrite Rabs_mult, (Rabs_pos_eq (/ b)) by (left; now apply Rinv_0_lt_compat).
  apply (Rmult_le_reg_r b); [exact Hb|]. rewrite Rmult_assoc, Rinv_l, Rmult_1_r by lra. exact H.
Qed.

Lemma forward_error (f f1 f2 : R -> R) a s M : s <> 0 -> derivs_on (near a s) f [f1; f2] -> bounded_on (near a s) f2 M ->
  Rabs ((f (a + s) - f a) / s - f1 a) <= M * Rabs s / 2.
Proof.
  intros Hs (D1 & D2 & _) B.
  assert (K : forall p q, p = 1 /\ q = 0 \/ p = 0 /\ q = 1 -> 
    Rabs (comb p q f a (- (p - q) * f1 a) 1 (- f a) (Rabs s)) <= M / 1 / 2 * Rabs s ^ 2).
  { intros p q PQ. assert (Hs0 : 0 <= Rabs s <= Rabs s) by (split; [apply Rabs_pos|lra]).
    refine (comb_bound f f1 a s p q _ 1 _ (M / 1) 1 D1 _ _ (Rabs s) Hs0).
    - unfold comb. rewrite ?(Rplus_0_r a), ?(Rminus_0_r a). destruct PQ as [[-> ->]|[-> ->]]; ring.
    - intros t Ht. cbn [pred]. 
      replace (comb p (- q) f1 a (INR 1 * (- (p - q) * f1 a)) 0 0 t) with (comb p (- q) f1 a 0 0 (- (p - q) * f1 a) t)
        by (unfold comb; cbn; ring).
      refine (comb_bound f1 f2 a s p (- q) 0 0 _ M 0 D2 _ _ t Ht).
      + unfold comb. rewrite ?(Rplus_0_r a), ?(Rminus_0_r a). destruct PQ as [[-> ->]|[-> ->]]; ring.
      + intros u Hu. eapply Rle_trans; [apply (sum_bound f2 a s M); try assumption|].
        * destruct PQ as [[-> ->]|[-> ->]]; rewrite ?Rabs_R0, ?Rabs_R1; lra.
        * destruct PQ as [[-> ->]|[-> ->]]; rewrite ?Ropp_involutive, ?Ropp_0, ?Rabs_R0, ?Rabs_R1; lra.
        * cbn; ring.
        * reflexivity.
        * rewrite Ropp_involutive. destruct PQ as [[-> ->]|[-> ->]]; rewrite ?Rabs_R0, ?Rabs_R1; cbn; lra. }
  assert (E : (f (a + s) - f a) / s - f1 a = (f (a + s) - f a - s * f1 a) / s) by (field; exact Hs).
  rewrite E. destruct (abs_cases s Hs) as [[P A]|[P A]].
  - apply div_bound; [exact P|]. rewrite A in *. specialize (K 1 0 ltac:(left; auto)). unfold comb in K.
    replace (1 * f (a + s) + 0 * f (a - s) + - (1 - 0) * f1 a * s ^ 1 + - f a) with (f (a + s) - f a - s * f1 a) in K by ring.
    eapply Rle_trans; [exact K|]. right. field.
  - replace ((f (a + s) - f a - s * f1 a) / s) with ((- (f (a + s) - f a - s * f1 a)) / - s) by (field; lra).
    apply div_bound; [lra|]. rewrite A in *. rewrite Rabs_Ropp. specialize (K 0 1 ltac:(right; auto)). unfold comb in K.
    replace (0 * f (a + - s) + 1 * f (a - - s) + - (0 - 1) * f1 a * (- s) ^ 1 + - f a) with (f (a + s) - f a - s * f1 a) in K
      by (replace (a - - s) with (a + s) by ring; ring).
    eapply Rle_trans; [exact K|]. right. field.
Qed.

Lemma central_first (f f1 f2 f3 : R -> R) a s M : s <> 0 -> derivs_on (near a s) f [f1; f2; f3] -> bounded_on (near a s) f3 M ->
  Rabs ((f (a + s) - f (a - s)) / (2 * s) - f1 a) <= M * s ^ 2 / 6.
Proof.
  intros Hs (D1 & D2 & D3 & _) B.
  assert (Hs0 : 0 <= Rabs s <= Rabs s) by (split; [apply Rabs_pos|lra]).
  assert (K : Rabs (comb 1 (-1) f a (- 2 * f1 a) 1 0 (Rabs s)) <= 2 * M / 1 / 2 / 3 * Rabs s ^ 3).
  { replace (2 * M / 1 / 2 / 3) with (2 * M / 1 / 2 / INR 3) by (cbn [INR]; f_equal; lra).
    refine (comb_bound f f1 a s 1 (-1) _ 1 _ (2 * M / 1 / 2) 2 D1 _ _ (Rabs s) Hs0).
    { unfold comb. rewrite ?(Rplus_0_r a), ?(Rminus_0_r a). ring. }
    intros t Ht. cbn [pred].
    replace (comb 1 (- -1) f1 a (INR 1 * (- 2 * f1 a)) 0 0 t) with (comb 1 1 f1 a 0 0 (- 2 * f1 a) t) by (unfold comb; cbn; ring).
    refine (comb_bound f1 f2 a s 1 1 _ 0 _ (2 * M / 1) 1 D2 _ _ t Ht).
    { unfold comb. rewrite ?(Rplus_0_r a), ?(Rminus_0_r a). ring. }
    clear t Ht. intros t Ht. cbn [pred].
    refine (comb_bound f2 f3 a s 1 (- (1)) _ 0 _ (2 * M) 0 D3 _ _ t Ht).
    { unfold comb. rewrite ?(Rplus_0_r a), ?(Rminus_0_r a). cbn. ring. }
    clear t Ht. intros t Ht. eapply Rle_trans; [apply (sum_bound f3 a s M); try assumption|].
    + rewrite Rabs_R1. lra.
    + rewrite Ropp_involutive, Rabs_R1. lra.
    + cbn. ring.
    + reflexivity.
    + rewrite Ropp_involutive, Rabs_R1. cbn. lra. }
  assert (E : (f (a + s) - f (a - s)) / (2 * s) - f1 a = (f (a + s) - f (a - s) - 2 * s * f1 a) / (2 * s)) by (field; exact Hs).
  assert (V : comb 1 (-1) f a (- 2 * f1 a) 1 0 (Rabs s) = f (a + Rabs s) - f (a - Rabs s) - 2 * Rabs s * f1 a) by (unfold comb; ring).
  rewrite V in K. rewrite E. destruct (abs_cases s Hs) as [[P A]|[P A]]; rewrite A in K.
  - apply div_bound; [lra|]. eapply Rle_trans; [exact K|]. right. field.
  - replace ((f (a + s) - f (a - s) - 2 * s * f1 a) / (2 * s)) with ((f (a + - s) - f (a - - s) - 2 * - s * f1 a) / (2 * - s)).
    + apply div_bound; [lra|]. eapply Rle_trans; [exact K|]. right. field.
    + replace (a - - s) with (a + s) by ring. replace (a + - s) with (a - s) by ring. field. lra.
Qed.

Lemma central_second (f f1 f2 f3 f4 : R -> R) a s M : s <> 0 -> derivs_on (near a s) f [f1; f2; f3; f4] -> bounded_on (near a s) f4 M ->
  Rabs ((f (a + s) + f (a - s) - 2 * f a) / (s * s) - f2 a) <= M * s ^ 2 / 12.
Proof.
  intros Hs (D1 & D2 & D3 & D4 & _) B.
  assert (Hs0 : 0 <= Rabs s <= Rabs s) by (split; [apply Rabs_pos|lra]).
  assert (K : Rabs (comb 1 1 f a (- f2 a) 2 (- 2 * f a) (Rabs s)) <= 2 * M / 1 / 2 / 3 / 4 * Rabs s ^ 4).
  { replace (2 * M / 1 / 2 / 3 / 4) with (2 * M / 1 / 2 / 3 / INR 4) by (cbn [INR]; f_equal; lra).
    refine (comb_bound f f1 a s 1 1 _ 2 _ (2 * M / 1 / 2 / 3) 3 D1 _ _ (Rabs s) Hs0).
    { unfold comb. rewrite ?(Rplus_0_r a), ?(Rminus_0_r a). ring. }
    intros t Ht. cbn [pred]. replace (2 * M / 1 / 2 / 3) with (2 * M / 1 / 2 / INR 3) by (cbn [INR]; f_equal; lra).
    replace (INR 2 * - f2 a) with (- 2 * f2 a) by (cbn; ring).
    refine (comb_bound f1 f2 a s 1 (- (1)) _ 1 _ (2 * M / 1 / 2) 2 D2 _ _ t Ht).
    { unfold comb. rewrite ?(Rplus_0_r a), ?(Rminus_0_r a). ring. }
    clear t Ht. intros t Ht. cbn [pred].
    replace (comb 1 (- - (1)) f2 a (INR 1 * (- 2 * f2 a)) 0 0 t) with (comb 1 1 f2 a 0 0 (- 2 * f2 a) t) by (unfold comb; cbn; ring).
    refine (comb_bound f2 f3 a s 1 1 _ 0 _ (2 * M / 1) 1 D3 _ _ t Ht).
    { unfold comb. rewrite ?(Rplus_0_r a), ?(Rminus_0_r a). ring. }
    clear t Ht. intros t Ht. cbn [pred].
    refine (comb_bound f3 f4 a s 1 (- (1)) _ 0 _ (2 * M) 0 D4 _ _ t Ht).
    { unfold comb. rewrite ?(Rplus_0_r a), ?(Rminus_0_r a). cbn. ring. }
    clear t Ht. intros t Ht. eapply Rle_trans; [apply (sum_bound f4 a s M); try assumption|].
    + rewrite Rabs_R1. lra.
    + rewrite Ropp_involutive, Rabs_R1. lra.
    + cbn. ring.
    + reflexivity.
    + rewrite Ropp_involutive, Rabs_R1. cbn. lra. }
  assert (E : (f (a + s) + f (a - s) - 2 * f a) / (s * s) - f2 a = (f (a + s) + f (a - s) - 2 * f a - s * s * f2 a) / (s * s)) by (field; exact Hs).
  assert (V : comb 1 1 f a (- f2 a) 2 (- 2 * f a) (Rabs s) = f (a + Rabs s) + f (a - Rabs s) - 2 * f a - Rabs s * Rabs s * f2 a)
    by (unfold comb; ring).
  rewrite V in K. rewrite E. assert (Hss : 0 < s * s) by nra.
  apply div_bound; [exact Hss|].
  replace (Rabs (f (a + s) + f (a - s) - 2 * f a - s * s * f2 a)) with (Rabs (f (a + Rabs s) + f (a - Rabs s) - 2 * f a - Rabs s * Rabs s * f2 a)).
  - eapply Rle_trans; [exact K|]. right. replace (Rabs s ^ 4) with (s ^ 4); [field|].
    destruct (abs_cases s Hs) as [[P A]|[P A]]; rewrite A; ring.
  - f_equal. destruct (abs_cases s Hs) as [[P A]|[P A]]; rewrite A; [reflexivity|].
    replace (a - - s) with (a + s) by ring. replace (a + - s) with (a - s) by ring. ring.
Qed.

(** ** limits *)
Lemma forward_limit (f : R -> R) (a d : R) : is_derive f a d -> forall eps, 0 < eps -> exists delta, 0 < delta /\
  forall s, s <> 0 -> Rabs s < delta -> Rabs ((f (a + s) - f a) / s - d) <= eps.
Proof.
  intros D eps He. apply is_derive_Reals in D. destruct (D eps He) as [delta H].
  exists delta. split; [apply cond_pos|]. intros s H0 Hs. left. now apply H.
Qed.
Lemma central_first_limit (f : R -> R) (a d : R) : is_derive f a d -> forall eps, 0 < eps -> exists delta, 0 < delta /\
  forall s, s <> 0 -> Rabs s < delta -> Rabs ((f (a + s) - f (a - s)) / (2 * s) - d) <= eps.
Proof.
  intros D eps He. destruct (forward_limit f a d D eps He) as (delta & Hd & H).
  exists delta. split; [exact Hd|]. intros s H0 Hs. assert (H1 := H s H0 Hs).
  assert (H2 := H (- s) ltac:(lra) ltac:(now rewrite Rabs_Ropp)).
  replace ((f (a + s) - f (a - s)) / (2 * s) - d) with
    (/ 2 * (((f (a + s) - f a) / s - d) + ((f (a + - s) - f a) / - s - d))).
  - rewrite Rabs_mult, (Rabs_pos_eq (/ 2)) by lra.
    assert (T := Rabs_triang ((f (a + s) - f a) / s - d) ((f (a + - s) - f a) / - s - d)). lra.
  - replace (a + - s) with (a - s) by ring. field. exact H0.
Qed.
Lemma near_ball a s : s <> 0 -> locally a (near a s).
Proof.
  intro H. exists (mkposreal (Rabs s) (Rabs_pos_lt s H)). intros t Ht. unfold near. left. exact Ht.
Qed.
Lemma central_second_limit (f : R -> R) (a d1 d2 : R) : twice_derivable f a d1 d2 -> forall eps, 0 < eps -> exists delta, 0 < delta /\
  forall s, s <> 0 -> Rabs s < delta -> Rabs ((f (a + s) + f (a - s) - 2 * f a) / (s * s) - d2) <= eps.
Proof.
  intros (f1 & [e0 L] & _ & D2) eps He. destruct (central_first_limit f1 a d2 D2 eps He) as (delta & Hd & H).
  exists (Rmin delta e0). split; [apply Rmin_pos; [exact Hd|apply cond_pos]|]. intros s H0 Hs.
  assert (Hs1 : Rabs s < delta) by (eapply Rlt_le_trans; [exact Hs|apply Rmin_l]).
  assert (Hs2 : Rabs s < e0) by (eapply Rlt_le_trans; [exact Hs|apply Rmin_r]).
  assert (D1 : forall t : R, near a s t -> is_derive f t (f1 t)).
  { intros t Ht. apply L. unfold near in Ht. apply (Rle_lt_trans _ (Rabs s)); [exact Ht|exact Hs2]. }
  assert (Hs0 : 0 <= Rabs s <= Rabs s) by (split; [apply Rabs_pos|lra]).
  assert (K : Rabs (comb 1 1 f a (- d2) 2 (- 2 * f a) (Rabs s)) <= 2 * eps / INR 2 * Rabs s ^ 2).
  { refine (comb_bound f f1 a s 1 1 _ 2 _ (2 * eps) 1 D1 _ _ (Rabs s) Hs0).
    { unfold comb. rewrite ?(Rplus_0_r a), ?(Rminus_0_r a). ring. }
    intros t Ht. cbn [pred]. destruct (Req_dec t 0) as [->|Ht0].
    - unfold comb. rewrite ?(Rplus_0_r a), ?(Rminus_0_r a).
      match goal with |- Rabs ?e <= _ => replace e with 0 by ring end. rewrite Rabs_R0. lra.
    - assert (Q := H t Ht0 ltac:(rewrite Rabs_pos_eq; lra)).
      replace (comb 1 (- (1)) f1 a (INR 2 * - d2) 1 0 t) with (((f1 (a + t) - f1 (a - t)) / (2 * t) - d2) * (2 * t))
        by (unfold comb; cbn [INR]; field; exact Ht0).
      rewrite Rabs_mult, (Rabs_pos_eq (2 * t)) by lra.
      eapply Rle_trans; [apply Rmult_le_compat_r; [lra|exact Q]|]. right. ring. }
  assert (E : (f (a + s) + f (a - s) - 2 * f a) / (s * s) - d2 = (f (a + s) + f (a - s) - 2 * f a - s * s * d2) / (s * s)) by (field; exact H0).
  assert (V : comb 1 1 f a (- d2) 2 (- 2 * f a) (Rabs s) = f (a + Rabs s) + f (a - Rabs s) - 2 * f a - Rabs s * Rabs s * d2)
    by (unfold comb; ring).
  rewrite V in K. rewrite E. assert (Hss : 0 < s * s) by nra.
  apply div_bound; [exact Hss|].
  replace (Rabs (f (a + s) + f (a - s) - 2 * f a - s * s * d2)) with (Rabs (f (a + Rabs s) + f (a - Rabs s) - 2 * f a - Rabs s * Rabs s * d2)).
  - eapply Rle_trans; [exact K|]. right. replace (Rabs s ^ 2) with (s ^ 2); [cbn [INR]; field|].
    destruct (abs_cases s H0) as [[P A]|[P A]]; rewrite A; ring.
  - f_equal. destruct (abs_cases s H0) as [[P A]|[P A]]; rewrite A; [reflexivity|].
    replace (a - - s) with (a + s) by ring. replace (a + - s) with (a - s) by ring. ring.
Qed.

(** ** functions of two variables along lines *)
Lemma line_derive (f : R -> R -> R) a b p q t dx dy : differentiable_pt_lim f (a + p * t) (b + q * t) dx dy ->
  is_derive (fun t : R => f (a + p * t) (b + q * t)) t (p * dx + q * dy).
Proof.
  intro D. apply is_derive_Reals. replace (p * dx + q * dy) with (dx * p + dy * q) by ring.
  apply (derivable_pt_lim_comp_2d f (fun t => a + p * t) (fun t => b + q * t)); [exact D| |];
    apply is_derive_Reals; auto_derive; auto; ring.
Qed.
Lemma lin_derive (g h : R -> R) p q (t u v : R) : is_derive g t u -> is_derive h t v ->
  is_derive (fun t : R => p * g t + q * h t) t (p * u + q * v).
Proof.
  intros D1 D2. auto_derive; [split; [eexists; exact D1|split; [eexists; exact D2|auto]]|]. derv D1. derv D2. ring.
Qed.
Lemma line_twice (f : R -> R -> R) a b dx dy dxx dyy dxy p q : twice_differentiable f a b dx dy dxx dyy dxy ->
  twice_derivable (fun t => f (a + p * t) (b + q * t)) 0 (p * dx + q * dy) (p * p * dxx + 2 * p * q * dxy + q * q * dyy).
Proof.
  intros (fx & fy & [e L] & Ex & Ey & Dx & Dy).
  assert (Z : forall c r : R, c + r * 0 = c) by (intros; ring).
  exists (fun t => p * fx (a + p * t) (b + q * t) + q * fy (a + p * t) (b + q * t)). split; [|split].
  - set (m := Rmax (Rabs p) (Rabs q) + 1). assert (Hm : 0 < m) by (assert (A1 := Rmax_l (Rabs p) (Rabs q)); assert (A2 := Rabs_pos p); unfold m; lra).
    assert (He : 0 < e / m) by (apply Rdiv_lt_0_compat; [apply cond_pos|exact Hm]).
    exists (mkposreal _ He). intros t Ht. change (Rabs (t - 0) < e / m) in Ht. rewrite Rminus_0_r in Ht.
    apply line_derive, L.
    + replace (a + p * t - a) with (p * t) by ring. rewrite Rabs_mult.
      apply (Rle_lt_trans _ (m * Rabs t)); [apply Rmult_le_compat_r; [apply Rabs_pos|unfold m; assert (A := Rmax_l (Rabs p) (Rabs q)); lra]|].
      apply (Rmult_lt_compat_l m) in Ht; [|exact Hm]. replace (m * (e / m)) with (pos e) in Ht by (field; lra). exact Ht.
    + replace (b + q * t - b) with (q * t) by ring. rewrite Rabs_mult.
      apply (Rle_lt_trans _ (m * Rabs t)); [apply Rmult_le_compat_r; [apply Rabs_pos|unfold m; assert (A := Rmax_r (Rabs p) (Rabs q)); lra]|].
      apply (Rmult_lt_compat_l m) in Ht; [|exact Hm]. replace (m * (e / m)) with (pos e) in Ht by (field; lra). exact Ht.
  - rewrite !Z. congruence.
  - assert (D1 : is_derive (fun t : R => fx (a + p * t) (b + q * t)) 0 (p * dxx + q * dxy)) by (apply line_derive; rewrite !Z; exact Dx).
    assert (D2 : is_derive (fun t : R => fy (a + p * t) (b + q * t)) 0 (p * dxy + q * dyy)) by (apply line_derive; rewrite !Z; exact Dy).
    replace (p * p * dxx + 2 * p * q * dxy + q * q * dyy) with (p * (p * dxx + q * dxy) + q * (p * dxy + q * dyy)) by ring.
    exact (lin_derive _ _ p q 0 _ _ D1 D2).
Qed.
Lemma twice_unique (f : R -> R) a d1 d2 e1 e2 : twice_derivable f a d1 d2 -> twice_derivable f a e1 e2 -> d1 = e1 /\ d2 = e2.
Proof.
  intros (f1 & L1 & E1 & D1) (g1 & L2 & E2 & D2).
  assert (L : locally a (fun t : R => f1 t = g1 t)).
  { generalize (filter_and _ _ L1 L2). apply filter_imp. intros t [A B].
    rewrite <- (is_derive_unique f t (f1 t) A). now apply is_derive_unique. }
  split.
  - rewrite <- E1, <- E2. exact (locally_singleton a _ L).
  - rewrite <- (is_derive_unique f1 a d2 D1). apply is_derive_unique.
    apply (is_derive_ext_loc g1); [|exact D2]. revert L. apply filter_imp. intros; now symmetry.
Qed.
Lemma derivs_twice (f f1 f2 : R -> R) a s l : s <> 0 -> derivs_on (near a s) f (f1 :: f2 :: l) -> twice_derivable f a (f1 a) (f2 a).
Proof.
  intros Hs (D1 & D2 & _). exists f1. split; [|split; [reflexivity|]].
  - apply (filter_imp (near a s)); [exact D1|now apply near_ball].
  - apply D2. unfold near. rewrite Rminus_eq_0, Rabs_R0. apply Rabs_pos.
Qed.
Lemma slice_x (f : R -> R -> R) a b dx dy dxx dyy dxy : twice_differentiable f a b dx dy dxx dyy dxy ->
  twice_derivable (fun t => f t b) a dx dxx.
Proof.
  intros (fx & fy & [e L] & Ex & Ey & Dx & Dy). exists (fun t => fx t b).
  assert (Zx : forall g u v l m, differentiable_pt_lim g u v l m -> is_derive (fun t : R => g t v) u l).
  { intros g u v l m D. apply is_derive_Reals. replace l with (l * 1 + m * 0) by ring.
    apply (derivable_pt_lim_comp_2d g (fun t => t) (fun _ => v)); [exact D|apply derivable_pt_lim_id|apply derivable_pt_lim_const]. }
  split; [|split; [exact Ex|]].
  - exists e. intros t Ht. apply (Zx f t b _ (fy t b)). apply L; [exact Ht|]. rewrite Rminus_eq_0, Rabs_R0. apply cond_pos.
  - exact (Zx fx a b dxx dxy Dx).
Qed.
Lemma slice_y (f : R -> R -> R) a b dx dy dxx dyy dxy : twice_differentiable f a b dx dy dxx dyy dxy ->
  twice_derivable (fun t => f a t) b dy dyy.
Proof.
  intros (fx & fy & [e L] & Ex & Ey & Dx & Dy). exists (fun t => fy a t).
  assert (Zy : forall g u v l m, differentiable_pt_lim g u v l m -> is_derive (fun t : R => g u t) v m).
  { intros g u v l m D. apply is_derive_Reals. replace m with (l * 0 + m * 1) by ring.
    apply (derivable_pt_lim_comp_2d g (fun _ => u) (fun t => t)); [exact D|apply derivable_pt_lim_const|apply derivable_pt_lim_id]. }
  split; [|split; [exact Ey|]].
  - exists e. intros t Ht. apply (Zy f a t (fx a t)). apply L; [|exact Ht]. rewrite Rminus_eq_0, Rabs_R0. apply cond_pos.
  - exact (Zy fy a b dxy dyy Dy).
Qed.
Lemma slice_diag (f : R -> R -> R) a b dx dy dxx dyy dxy : twice_differentiable f a b dx dy dxx dyy dxy ->
  twice_derivable (fun t => f (a + t) (b + t)) 0 (dx + dy) (dxx + 2 * dxy + dyy).
Proof.
  intro T. destruct (line_twice f a b dx dy dxx dyy dxy 1 1 T) as (f1 & L & E & D). exists f1. split; [|split].
  - revert L. apply filter_imp. intros t. apply is_derive_ext. intro u. f_equal; ring.
  - rewrite E. ring.
  - replace (dxx + 2 * dxy + dyy) with (1 * 1 * dxx + 2 * 1 * 1 * dxy + 1 * 1 * dyy) by ring. exact D.
Qed.
Lemma twice_first (f : R -> R) a d1 d2 : twice_derivable f a d1 d2 -> is_derive f a d1.
Proof. intros (f1 & L & <- & _). exact (locally_singleton a _ L). Qed.

(** the mixed derivative from the three lines *)
Definition mixed_diff (f : R -> R -> R) a b s : R :=
  (f (a + s) (b + s) + f (a - s) (b - s) - (f (a + s) b + f (a - s) b) - (f a (b + s) + f a (b - s)) + 2 * f a b) / (2 * (s * s)).
Lemma mixed_bound (f : R -> R -> R) a b s dxx dyy dxy e1 e2 e3 : s <> 0 ->
  Rabs ((f (a + s) b + f (a - s) b - 2 * f a b) / (s * s) - dxx) <= e1 ->
  Rabs ((f a (b + s) + f a (b - s) - 2 * f a b) / (s * s) - dyy) <= e2 ->
  Rabs ((f (a + (0 + s)) (b + (0 + s)) + f (a + (0 - s)) (b + (0 - s)) - 2 * f (a + 0) (b + 0)) / (s * s) - (dxx + 2 * dxy + dyy)) <= e3 ->
  Rabs (mixed_diff f a b s - dxy) <= (e1 + e2 + e3) / 2.
Proof.
  intros Hs H1 H2 H3. replace (a + (0 + s)) with (a + s) in H3 by ring. replace (b + (0 + s)) with (b + s) in H3 by ring.
  replace (a + (0 - s)) with (a - s) in H3 by ring. replace (b + (0 - s)) with (b - s) in H3 by ring.
  rewrite (Rplus_0_r a), (Rplus_0_r b) in H3.
  set (X := (f (a + s) b + f (a - s) b - 2 * f a b) / (s * s) - dxx) in *.
  set (Y := (f a (b + s) + f a (b - s) - 2 * f a b) / (s * s) - dyy) in *.
  set (Z := (f (a + s) (b + s) + f (a - s) (b - s) - 2 * f a b) / (s * s) - (dxx + 2 * dxy + dyy)) in *.
  replace (mixed_diff f a b s - dxy) with ((Z - X - Y) / 2) by (unfold mixed_diff, X, Y, Z; field; exact Hs).
  apply Rabs_le_between in H1. apply Rabs_le_between in H2. apply Rabs_le_between in H3. apply Rabs_le. lra.
Qed.
Lemma mixed_limit (f : R -> R -> R) a b dx dy dxx dyy dxy : twice_differentiable f a b dx dy dxx dyy dxy ->
  forall eps, 0 < eps -> exists delta, 0 < delta /\ forall s, s <> 0 -> Rabs s < delta -> Rabs (mixed_diff f a b s - dxy) <= eps.
Proof.
  intros T eps He.
  destruct (central_second_limit _ _ _ _ (slice_x _ _ _ _ _ _ _ _ T) (eps / 2) ltac:(lra)) as (d1 & P1 & H1).
  destruct (central_second_limit _ _ _ _ (slice_y _ _ _ _ _ _ _ _ T) (eps / 2) ltac:(lra)) as (d2 & P2 & H2).
  destruct (central_second_limit _ _ _ _ (slice_diag _ _ _ _ _ _ _ _ T) (eps / 2) ltac:(lra)) as (d3 & P3 & H3).
  exists (Rmin d1 (Rmin d2 d3)). split; [repeat apply Rmin_pos; assumption|]. intros s H0 Hs.
  assert (A1 := Rmin_l d1 (Rmin d2 d3)). assert (A2 := Rmin_r d1 (Rmin d2 d3)). assert (A3 := Rmin_l d2 d3). assert (A4 := Rmin_r d2 d3).
  eapply Rle_trans; [apply (mixed_bound f a b s dxx dyy dxy (eps / 2) (eps / 2) (eps / 2) H0)|lra];
    [apply H1|apply H2|apply H3]; auto; lra.
Qed.
Lemma mixed_error (f : R -> R -> R) a b dx dy dxx dyy dxy s M x1 x2 x3 x4 y1 y2 y3 y4 z1 z2 z3 z4 : s <> 0 ->
  twice_differentiable f a b dx dy dxx dyy dxy ->
  derivs_on (near a s) (fun t => f t b) [x1; x2; x3; x4] -> bounded_on (near a s) x4 M ->
  derivs_on (near b s) (fun t => f a t) [y1; y2; y3; y4] -> bounded_on (near b s) y4 M ->
  derivs_on (near 0 s) (fun t => f (a + t) (b + t)) [z1; z2; z3; z4] -> bounded_on (near 0 s) z4 M ->
  Rabs ((f (a + s) b + f (a - s) b - 2 * f a b) / (s * s) - dxx) <= M * s ^ 2 / 12 /\
  Rabs ((f a (b + s) + f a (b - s) - 2 * f a b) / (s * s) - dyy) <= M * s ^ 2 / 12 /\
  Rabs (mixed_diff f a b s - dxy) <= M * s ^ 2 / 8.
Proof.
  intros Hs T Dx Bx Dy By Dz Bz.
  destruct (twice_unique _ _ _ _ _ _ (derivs_twice _ _ _ _ _ _ Hs Dx) (slice_x _ _ _ _ _ _ _ _ T)) as [_ Ex].
  destruct (twice_unique _ _ _ _ _ _ (derivs_twice _ _ _ _ _ _ Hs Dy) (slice_y _ _ _ _ _ _ _ _ T)) as [_ Ey].
  destruct (twice_unique _ _ _ _ _ _ (derivs_twice _ _ _ _ _ _ Hs Dz) (slice_diag _ _ _ _ _ _ _ _ T)) as [_ Ez].
  assert (H1 := central_second _ _ _ _ _ _ _ _ Hs Dx Bx). assert (H2 := central_second _ _ _ _ _ _ _ _ Hs Dy By).
  assert (H3 := central_second _ _ _ _ _ _ _ _ Hs Dz Bz). cbv beta in H1, H2, H3. rewrite Ex in H1. rewrite Ey in H2. rewrite Ez in H3.
  split; [exact H1|]. split; [exact H2|].
  eapply Rle_trans; [apply (mixed_bound f a b s dxx dyy dxy _ _ _ Hs H1 H2 H3)|]. right. field.
Qed.
