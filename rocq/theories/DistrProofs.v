(** * DistrProofs: central moments, binomial table and the moments of the distributions *)

From Coq Require Import List ZArith Bool Reals Lra Lia.
From Coquelicot Require Import Coquelicot.
From Verif Require Import Base Num Map UReal Stat HessGrad Moments CheckMoments UReal2 Distr Sums SpecProb SpecDistr Integrals DensProb.
Import ListNotations.
Local Open Scope R_scope.

(** ** Powers of a shifted variable *)
Fixpoint peval (l : list R) (x : R) : R :=
  match l with [] => 0 | a :: l' => a + x * peval l' x end.
Fixpoint padd (l l' : list R) : list R :=
  match l, l' with
  | [], _ => l'
  | _, [] => l
  | a :: m, b :: m' => (a + b) :: padd m m'
  end.
Fixpoint pshift (c : R) (n : nat) : list R :=
  match n with
  | O => [1]
  | S n' => padd (0 :: pshift c n') (map (Rmult (- c)) (pshift c n'))
  end.
Lemma peval_padd l : forall l' x, peval (padd l l') x = peval l x + peval l' x.
Proof. induction l as [|a l IH]; intros [|b l'] x; cbn; try ring. rewrite IH. ring. Qed.
Lemma peval_map c l x : peval (map (Rmult c) l) x = c * peval l x.
Proof. induction l as [|a l IH]; cbn; [ring|]. rewrite IH. ring. Qed.
Lemma peval_pshift c n x : peval (pshift c n) x = (x - c) ^ n.
Proof. induction n as [|n IH]; cbn [pshift pow]; [cbn; ring|]. rewrite peval_padd, peval_map. cbn [peval]. rewrite IH. ring. Qed.
Lemma padd_length l : forall l', (length (padd l l') = Nat.max (length l) (length l'))%nat.
Proof. induction l as [|a l IH]; intros [|b l']; cbn; try reflexivity. now rewrite IH. Qed.
Lemma pshift_length c n : (length (pshift c n) = S n)%nat.
Proof. induction n as [|n IH]; cbn [pshift]; [reflexivity|]. rewrite padd_length, map_length. cbn [length]. rewrite IH. lia. Qed.

Fixpoint pexp (l : list R) (r : nat -> R) (i : nat) : R :=
  match l with [] => 0 | a :: l' => a * r i + pexp l' r (S i) end.

Lemma Ex_ext' (P : expect) f g m : (forall o, f o = g o) -> int P f /\ Ex P f = m -> int P g /\ Ex P g = m.
Proof. intros E [H <-]. destruct (Ex_ext P f g E H) as [A B]. now rewrite B. Qed.

Lemma Ex_peval (P : expect) (X : Om P -> R) (r : nat -> R) n :
  (forall k, (k <= n)%nat -> int P (fun o => X o ^ k) /\ Ex P (fun o => X o ^ k) = r k) ->
  forall l i, (i + length l <= S n)%nat ->
  int P (fun o => X o ^ i * peval l (X o)) /\ Ex P (fun o => X o ^ i * peval l (X o)) = pexp l r i.
Proof.
  intro H. induction l as [|a l IH]; intros i Hi.
  - apply (Ex_ext' P (fun _ => 0)); [intro o; cbn; ring|]. apply Ex_const.
  - cbn [length] in Hi. destruct (IH (S i)) as [I1 E1]; [lia|]. destruct (H i) as [I0 E0]; [lia|].
    destruct (Ex_scal P a _ I0) as [Ia Ea]. destruct (Ex_plus P _ _ Ia I1) as [I2 E2].
    apply (Ex_ext' P (fun o => a * X o ^ i + X o ^ S i * peval l (X o))); [intro o; cbn; ring|].
    split; [exact I2|]. cbn [pexp]. rewrite E2, Ea, E0, E1. reflexivity.
Qed.
Lemma Ex_shift (P : expect) (X : Om P -> R) (r : nat -> R) c n :
  (forall k, (k <= n)%nat -> int P (fun o => X o ^ k) /\ Ex P (fun o => X o ^ k) = r k) ->
  int P (fun o => (X o - c) ^ n) /\ Ex P (fun o => (X o - c) ^ n) = pexp (pshift c n) r 0.
Proof.
  intro H. destruct (Ex_peval P X r n H (pshift c n) 0) as [A B]; [rewrite pshift_length; lia|].
  apply (Ex_ext' P (fun o => X o ^ 0 * peval (pshift c n) (X o))); [|split; assumption].
  intro o. rewrite peval_pshift. cbn. ring.
Qed.

(** ** C38 *)
Lemma C38_binomial_coefficients_proof : forall n k : Z,
  ((0 <= k <= n)%Z -> (n <= 8)%Z -> exists c, binom_coeff n k = Ret c /\
     (c * Z.of_nat (fact (Z.to_nat k)) * Z.of_nat (fact (Z.to_nat (n - k))) = Z.of_nat (fact (Z.to_nat n)))%Z) /\
  (~ ((0 <= k <= n)%Z /\ (n <= 8)%Z) -> binom_coeff n k = Assert).
Proof.
  intros n k. split.
  - intros [H0 H1] H8.
    assert (exists N K, n = Z.of_nat N /\ k = Z.of_nat K /\ (K <= N <= 8)%nat) as (N & K & -> & -> & H).
    { exists (Z.to_nat n), (Z.to_nat k). repeat split; lia. }
    clear H0 H1 H8.
    do 9 (destruct N as [|N]; [do 9 (destruct K as [|K]; [first [exfalso; lia|eexists; split; [vm_compute; reflexivity|vm_compute; reflexivity]]|]); lia|]). lia.
  - intro H. unfold binom_coeff.
    destruct (0 <=? n)%Z eqn:A; [|reflexivity]. destruct (n <=? 8)%Z eqn:B; [|reflexivity].
    destruct (0 <=? k)%Z eqn:C; [|reflexivity]. destruct (k <=? n)%Z eqn:D; [|reflexivity].
    exfalso. apply H. lia.
Qed.

Lemma cons_eq (a b : R) l m : a = b -> l = m -> a :: l = b :: m.
Proof. congruence. Qed.
Lemma central_moments_eq (z1 z2 z3 z4 z5 z6 z7 z8 : R) :
  let r k := nth k [1; z1; z2; z3; z4; z5; z6; z7; z8] 0 in
  central_moments (N := RN) [z1; z2; z3; z4; z5; z6; z7; z8] = Ret (map (fun n => pexp (pshift z1 n) r 0) (seq 2 7)).
Proof.
  intro r.
  assert (B : forall n k c, binom_coeff n k = Ret c -> forall A (f : Z -> outcome A), bind (binom_coeff n k) f = f c)
    by (intros n k c -> A f; reflexivity).
  unfold central_moments, mean_powers. cbn [seq ofold Nat.sub buf_get nth_error bind buf_set omap repeat omapM map].
  unfold cm_loop. cbn [seq ofold Nat.sub].
  repeat match goal with |- context [bind (binom_coeff ?n ?k) ?f] =>
    let c := eval vm_compute in (match binom_coeff n k with Ret c => c | _ => 0%Z end) in
    rewrite (B n k c) by (vm_compute; reflexivity) end.
  cbn [bind buf_get nth_error Nat.sub].
  cbn [nofZ RN nmul nadd n1 n0 T].
  apply (f_equal Ret).
  repeat match goal with |- context [IZR (?a * ?b)%Z] => let v := eval vm_compute in (a * b)%Z in change (IZR (a * b)) with (IZR v) end.
  cbn -[IZR Rmult Rplus Ropp]. repeat (apply cons_eq; [ring|]). reflexivity.
Qed.

Lemma C38_central_moments_proof : forall (P : expect) (X : Om P -> R),
  (forall k, (k <= 8)%nat -> int P (fun o => X o ^ k)) ->
  central_moments (N := RN) (map (fun k => Ex P (fun o => X o ^ k)) (seq 1 8)) =
  Ret (map (fun k => Ex P (fun o => (X o - Ex P X) ^ k)) (seq 2 7)).
Proof.
  intros P X H. set (r k := Ex P (fun o => X o ^ k)).
  assert (E1 : Ex P X = r 1%nat).
  { symmetry. apply (Ex_ext P (fun o => X o ^ 1) X); [intro; cbn; ring|apply H; lia]. }
  assert (E0 : r 0%nat = 1) by (destruct (Ex_ext P (fun _ => 1) (fun o => X o ^ 0)) as [_ E]; [reflexivity|apply Ex_const|unfold r; rewrite <- E; apply Ex_const]).
  cbn [map seq].
  change (Ex P (fun o => X o ^ 1)) with (r 1%nat). change (Ex P (fun o => X o ^ 2)) with (r 2%nat).
  change (Ex P (fun o => X o ^ 3)) with (r 3%nat). change (Ex P (fun o => X o ^ 4)) with (r 4%nat).
  change (Ex P (fun o => X o ^ 5)) with (r 5%nat). change (Ex P (fun o => X o ^ 6)) with (r 6%nat).
  change (Ex P (fun o => X o ^ 7)) with (r 7%nat). change (Ex P (fun o => X o ^ 8)) with (r 8%nat).
  rewrite central_moments_eq. apply f_equal. rewrite E1.
  set (r' k := nth k [1; r 1%nat; r 2%nat; r 3%nat; r 4%nat; r 5%nat; r 6%nat; r 7%nat; r 8%nat] 0).
  assert (E : forall n, (n <= 8)%nat -> Ex P (fun o => (X o - r 1%nat) ^ n) = pexp (pshift (r 1%nat) n) r' 0).
  { intros n Hn. apply (Ex_shift P X r'). intros k Hk. split; [apply H; lia|]. change (r k = r' k).
    unfold r'. do 9 (destruct k as [|k]; [cbn; congruence|]). lia. }
  cbn [map seq]. repeat (apply cons_eq; [symmetry; apply E; lia|]). reflexivity.
Qed.

Lemma std_moments_eq (m2 m3 m4 m5 m6 m7 m8 s : R) : s = sqrt m2 -> 0 < m2 ->
  std_moments (N := RN) [m2; m3; m4; m5; m6; m7; m8] = Ret [m3 / s ^ 3; m4 / s ^ 4; m5 / s ^ 5; m6 / s ^ 6; m7 / s ^ 7; m8 / s ^ 8].
Proof.
  intros -> H. assert (Hs : 0 < sqrt m2) by now apply sqrt_lt_R0. assert (E : sqrt m2 * sqrt m2 = m2) by (apply sqrt_sqrt; lra).
  unfold std_moments. cbn -[IZR Rmult Rplus Ropp sqrt Rdiv pow]. apply f_equal.
  change (@nsqrt RN m2) with (sqrt m2). set (s := sqrt m2) in *. rewrite <- E.
  repeat (apply cons_eq; [apply f_equal; ring|]). reflexivity.
Qed.

Lemma C38_standardized_moments_proof : forall (P : expect) (X : Om P -> R),
  (forall k, (k <= 8)%nat -> int P (fun o => X o ^ k)) ->
  let mu := Ex P X in
  let var := Ex P (fun o => (X o - mu) ^ 2) in
  0 < var ->
  std_moments (N := RN) (map (fun k => Ex P (fun o => (X o - mu) ^ k)) (seq 2 7)) =
  Ret (map (fun k => Ex P (fun o => ((X o - mu) / sqrt var) ^ k)) (seq 3 6)).
Proof.
  intros P X H mu var Hv. cbn [map seq]. fold var.
  rewrite (std_moments_eq _ _ _ _ _ _ _ _ eq_refl Hv). apply f_equal.
  assert (Hs : 0 < sqrt var) by now apply sqrt_lt_R0.
  assert (E : forall k, (k <= 8)%nat -> Ex P (fun o => (X o - mu) ^ k) / sqrt var ^ k = Ex P (fun o => ((X o - mu) / sqrt var) ^ k)).
  { intros k Hk. assert (I : int P (fun o => (X o - mu) ^ k)).
    { apply (Ex_shift P X (fun k => Ex P (fun o => X o ^ k))). intros j Hj. split; [apply H; lia|reflexivity]. }
    destruct (Ex_scal P (/ sqrt var ^ k) _ I) as [I' E']. destruct (Ex_ext P (fun o => / sqrt var ^ k * (X o - mu) ^ k) (fun o => ((X o - mu) / sqrt var) ^ k)) as [_ E2]; [|exact I'|].
    { intro o. unfold Rdiv. rewrite Rpow_mult_distr, pow_inv. ring. }
    rewrite <- E2, E'. unfold Rdiv. ring. }
  repeat (apply cons_eq; [apply E; lia|]). reflexivity.
Qed.

(** ** C37 *)
Lemma C37_normal_proof : forall mu sigma : R, exists m : moms RN,
  (forall eig last, d_normal (N := RN) eig last mu sigma = u2_new_std eig last mu sigma m 0) /\
  (0 < sigma -> forall k, (k <= 8)%nat ->
     average (normal_density mu sigma) minus_infinity plus_infinity (fun x => ((x - mu) / sigma) ^ k) (stdmom m k)).
Proof.
  intros mu sigma. exists normal_moments. split; [reflexivity|]. intros Hs k Hk.
  replace (stdmom normal_moments k) with (normal_mom k); [now apply normal_average|].
  do 9 (destruct k as [|k]; [cbn; ring|]). lia.
Qed.

Lemma pow_sqrt2K (K : R) k : 0 < K -> (sqrt 2 * sqrt K) ^ (2 * k) = (2 * K) ^ k.
Proof. intro H. rewrite <- sqrt_mult, pow_mult by lra. f_equal. cbn. rewrite Rmult_1_r. apply sqrt_sqrt. lra. Qed.

Lemma chi_std (K : R) k : 0 < K -> (k <= 8)%nat ->
  average (chisquare_density K) zero_plus plus_infinity (fun x => ((x - K) / (sqrt 2 * sqrt K)) ^ k)
    (pexp (pshift K k) (chi_mom K) 0 / (sqrt 2 * sqrt K) ^ k).
Proof.
  intros HK Hk. destruct (chi_total K HK) as (t & Ht & It).
  assert (O : filter_prod zero_plus plus_infinity (fun ab => fst ab <= snd ab /\ forall x, fst ab < x < snd ab -> 0 <= chisquare_density K x)).
  { exists (fun x => 0 < x /\ x <= 1) (fun x => 1 < x); [apply filter_right_zero; lra|exists 1; auto|].
    intros a b Ha Hb. cbn. split; [lra|]. intros x _. left. apply chi_pos. }
  set (P := dens_prob (chisquare_density K) t Ht It O).
  assert (M : forall n, (n <= k)%nat -> int P (fun x => x ^ n) /\ Ex P (fun x => x ^ n) = chi_mom K n).
  { intros n _. apply (dens_average _ t Ht It O). exists t. split; [exact Ht|]. split; [exact It|]. now apply chi_moments. }
  apply (dens_average _ t Ht It O). destruct (Ex_shift P (fun x => x) (chi_mom K) K k M) as [I E].
  destruct (Ex_scal P (/ (sqrt 2 * sqrt K) ^ k) _ I) as [I' E'].
  apply (Ex_ext' P (fun o => / (sqrt 2 * sqrt K) ^ k * (o - K) ^ k)).
  - intro o. unfold Rdiv. generalize (sqrt 2 * sqrt K). intro s. rewrite Rpow_mult_distr, pow_inv. ring.
  - split; [exact I'|]. rewrite E', E. unfold Rdiv. ring.
Qed.

Lemma chisquare_std (k : Z) (j : nat) : (0 < k)%Z -> (j <= 8)%nat ->
  stdmom (chisquare_moments k) j = pexp (pshift (IZR k) j) (chi_mom (IZR k)) 0 / (sqrt 2 * sqrt (IZR k)) ^ j.
Proof.
  intros Hk Hj. assert (HK : 0 < IZR k) by now apply (IZR_lt 0).
  assert (Ha : sqrt 2 * sqrt 2 = 2) by (apply sqrt_sqrt; lra).
  assert (Hb : sqrt (IZR k) * sqrt (IZR k) = IZR k) by (apply sqrt_sqrt; lra).
  assert (Pa : 0 < sqrt 2) by (apply sqrt_lt_R0; lra). assert (Pb : 0 < sqrt (IZR k)) by now apply sqrt_lt_R0.
  assert (E : forall i, (sqrt 2 * sqrt (IZR k)) ^ (2 * i) = (2 * IZR k) ^ i) by (intro i; now apply pow_sqrt2K).
  assert (O : forall i, (sqrt 2 * sqrt (IZR k)) ^ S (2 * i) = (sqrt 2 * sqrt (IZR k)) * (2 * IZR k) ^ i)
    by (intro i; cbn [pow]; now rewrite E).
  assert (Ia : sqrt 2 / 2 = / sqrt 2) by (rewrite <- Ha at 2; field; lra).
  assert (F : forall u v q w : R, w <> 0 -> v * w * 2 = u * q -> sqrt 2 * v / sqrt (IZR k) = u * q / (sqrt 2 * sqrt (IZR k) * w)).
  { intros u v q w Hw Hq. apply (Rmult_eq_reg_r (sqrt 2 * sqrt (IZR k) * w)); [|intro Z; apply Rmult_integral in Z; destruct Z as [Z|Z]; [nra|auto]].
    replace (sqrt 2 * v / sqrt (IZR k) * (sqrt 2 * sqrt (IZR k) * w)) with (sqrt 2 * sqrt 2 * v * w) by (field; lra).
    rewrite Ha. replace (u * q / (sqrt 2 * sqrt (IZR k) * w) * (sqrt 2 * sqrt (IZR k) * w)) with (u * q) by (field; repeat split; lra || auto). lra. }
  assert (G : forall v q w : R, w <> 0 -> v * w * 2 = q -> sqrt 2 * v / sqrt (IZR k) = q / (sqrt 2 * sqrt (IZR k) * w)).
  { intros v q w Hw Hq. rewrite <- (Rmult_1_l q). apply F; [exact Hw|lra]. }
  unfold stdmom, chisquare_moments. cbn [v3 v4 v5 v6 v7 v8].
  cbn [nofZ RN nmul nadd ndiv nsqrt T].
  set (K := IZR k) in *.
  destruct j as [|j]; [cbn; field|].
  destruct j as [|j]; [cbn -[IZR sqrt]; field; lra|].
  destruct j as [|j]; [rewrite (E 1%nat : (sqrt 2 * sqrt K) ^ 2 = _); cbn -[IZR sqrt]; field; lra|].
  destruct j as [|j]; [rewrite (O 1%nat : (sqrt 2 * sqrt K) ^ 3 = _); replace (2 * sqrt 2 / sqrt K) with (sqrt 2 * 2 / sqrt K) by (unfold Rdiv; ring); apply G; [apply pow_nonzero; lra|cbn -[IZR sqrt]; ring]|].
  destruct j as [|j]; [rewrite (E 2%nat : (sqrt 2 * sqrt K) ^ 4 = _); cbn -[IZR sqrt]; field; lra|].
  destruct j as [|j]; [rewrite (O 2%nat : (sqrt 2 * sqrt K) ^ 5 = _); apply G; [apply pow_nonzero; lra|cbn -[IZR sqrt]; field; lra]|].
  destruct j as [|j]; [rewrite (E 3%nat : (sqrt 2 * sqrt K) ^ 6 = _); cbn -[IZR sqrt]; field; lra|].
  destruct j as [|j]; [rewrite (O 3%nat : (sqrt 2 * sqrt K) ^ 7 = _); apply G; [apply pow_nonzero; lra|cbn -[IZR sqrt]; field; lra]|].
  destruct j as [|j]; [rewrite (E 4%nat : (sqrt 2 * sqrt K) ^ 8 = _); cbn -[IZR sqrt]; field; lra|].
  lia.
Qed.

Lemma C37_chisquare_proof : forall k : Z,
  ((k < 0)%Z -> forall eig last, d_chisquare (N := RN) eig last k = (last, Throw InvalidArgument)) /\
  (k = 0%Z -> forall eig last, d_chisquare (N := RN) eig last k = (last, Ret (u2_const (0 : RN)))) /\
  ((0 < k)%Z -> exists m : moms RN, let sigma := sqrt (2 * IZR k) in
     (forall eig last, d_chisquare (N := RN) eig last k = u2_new_std eig last (IZR k : RN) (sigma : RN) m 0) /\
     average (chisquare_density (IZR k)) zero_plus plus_infinity (fun x => x) (IZR k) /\
     average (chisquare_density (IZR k)) zero_plus plus_infinity (fun x => (x - IZR k) ^ 2) (sigma ^ 2) /\
     forall j, (j <= 8)%nat ->
       average (chisquare_density (IZR k)) zero_plus plus_infinity (fun x => ((x - IZR k) / sigma) ^ j) (stdmom m j)).
Proof.
  intro k. repeat apply conj.
  - intros H eig last. unfold d_chisquare. now replace (k <? 0)%Z with true by lia.
  - intros -> eig last. reflexivity.
  - intro H. exists (chisquare_moments k). intro sigma.
    assert (HK : 0 < IZR k) by now apply (IZR_lt 0).
    assert (Es : sigma = sqrt 2 * sqrt (IZR k)) by (unfold sigma; apply sqrt_mult; lra).
    assert (A : forall j, (j <= 8)%nat -> average (chisquare_density (IZR k)) zero_plus plus_infinity (fun x => ((x - IZR k) / sigma) ^ j) (stdmom (chisquare_moments k) j)).
    { intros j Hj. rewrite chisquare_std, Es by assumption. now apply chi_std. }
    assert (Ps : 0 < sigma) by (unfold sigma; apply sqrt_lt_R0; lra).
    split; [|split; [|split; [|exact A]]].
    + intros eig last. unfold d_chisquare. replace (k <? 0)%Z with false by lia. replace (k =? 0)%Z with false by lia.
      rewrite Es. reflexivity.
    + destruct (chi_total (IZR k) HK) as (t & Ht & It). exists t. split; [exact Ht|]. split; [exact It|].
      generalize (chi_moments (IZR k) HK t It 1). apply rint_ext; [intro x; rr; cbn; ring|rr; cbn; ring].
    + destruct (A 2%nat) as (t & Ht & It & J); [lia|]. exists t. split; [exact Ht|]. split; [exact It|].
      generalize (rint_scal (sigma ^ 2) _ _ J). apply rint_ext; [intro x; rr; field; lra|rr; cbn [stdmom]; ring].
Qed.

Lemma uniform_rint (a b : R) n c s : a < b -> s <> 0 ->
  is_RInt_gen (fun x => ((x - c) / s) ^ n * uniform_density x) (at_point a) (at_point b)
    (s / INR (S n) * (((b - c) / s) ^ S n - ((a - c) / s) ^ S n)).
Proof.
  intros H Hs. apply is_RInt_gen_at_point.
  assert (Hn : INR (S n) <> 0) by (apply not_0_INR; lia).
  assert (I : is_RInt (fun x => ((x - c) / s) ^ n * uniform_density x) a b
    (minus (s / INR (S n) * ((b - c) / s) ^ S n) (s / INR (S n) * ((a - c) / s) ^ S n))).
  { apply (is_RInt_derive (fun x => s / INR (S n) * ((x - c) / s) ^ S n)).
    - intros x _. unfold uniform_density. auto_derive; [exact I|]. change (match n with 0%nat => 1 | S _ => INR n + 1 end) with (INR (S n)).
      unfold Rminus, Rdiv. cbn [Nat.pred]. field. split; assumption.
    - intros x _. unfold uniform_density. apply (ex_derive_continuous (fun x => ((x - c) / s) ^ n * 1)). auto_derive. exact I. }
  replace (s / INR (S n) * (((b - c) / s) ^ S n - ((a - c) / s) ^ S n))
    with (minus (s / INR (S n) * ((b - c) / s) ^ S n) (s / INR (S n) * ((a - c) / s) ^ S n)); [exact I|].
  unfold minus, plus, opp; cbn -[INR pow]. ring.
Qed.
Lemma uniform_std (left right : R) : left < right -> let c := (left + right) / 2 in let s := sqrt (1 / 12) * (right - left) in 
  is_RInt_gen uniform_density (at_point left) (at_point right) (right - left) /\
  forall k, (k <= 8)%nat -> average uniform_density (at_point left) (at_point right) (fun x => ((x - c) / s) ^ k) (stdmom uniform_moments k).
Proof.
  intro H. set (q := sqrt (1 / 12)). intros c s.
  assert (Hq : 0 < q) by (apply sqrt_lt_R0; lra). assert (Eq : q * q = 1 / 12) by (apply sqrt_sqrt; lra).
  assert (Hs : 0 < s) by (unfold s; nra).
  assert (T : is_RInt_gen uniform_density (at_point left) (at_point right) (right - left)).
  { generalize (uniform_rint left right 0 c 1 H ltac:(lra)). apply rint_ext; [intro x; rr; cbn; ring|rr; cbn; field]. }
  assert (A : forall k, (k <= 8)%nat -> average uniform_density (at_point left) (at_point right) (fun x => ((x - c) / s) ^ k) (stdmom uniform_moments k)).
  { intros k Hk. exists (right - left). split; [lra|]. split; [exact T|].
    generalize (uniform_rint left right k c s H ltac:(lra)). apply rint_ext; [reflexivity|]. rr.
    replace ((right - c) / s) with (6 * q). 2:{ unfold c, s. replace (6 * q) with (6 * (q * q) / q) by (field; lra). rewrite Eq. field. lra. }
    replace ((left - c) / s) with (- (6 * q)). 2:{ unfold c, s. replace (6 * q) with (6 * (q * q) / q) by (field; lra). rewrite Eq. field. lra. }
    assert (Q3 : (6 * q) ^ 2 = 3) by (cbn; lra).
    assert (Q : forall i, (6 * q) ^ (2 * i) = 3 ^ i) by (intro i; rewrite pow_mult; now rewrite Q3).
    assert (Q' : forall i, (6 * q) ^ S (2 * i) = 6 * q * 3 ^ i) by (intro i; cbn [pow]; now rewrite Q).
    assert (N : forall i, (- (6 * q)) ^ (2 * i) = 3 ^ i) by (intro i; rewrite pow_mult; f_equal; cbn; lra).
    assert (N' : forall i, (- (6 * q)) ^ S (2 * i) = - (6 * q * 3 ^ i)) by (intro i; cbn [pow]; rewrite N; ring).
    assert (Odd : forall i w, w <> 0 -> s / w * (6 * q * 3 ^ i - - (6 * q * 3 ^ i)) = 3 ^ i / w * (right - left)).
    { intros i w Hw. unfold s. replace (q * (right - left) / w * (6 * q * 3 ^ i - - (6 * q * 3 ^ i))) with (12 * (q * q) * 3 ^ i / w * (right - left)) by (field; exact Hw).
      rewrite Eq. field. exact Hw. }
    destruct k as [|k]; [rewrite (Q' 0%nat : (6 * q) ^ 1 = _), (N' 0%nat : (- (6 * q)) ^ 1 = _), Odd by (cbn; lra); cbn; field|].
    destruct k as [|k]; [rewrite (Q 1%nat : (6 * q) ^ 2 = _), (N 1%nat : (- (6 * q)) ^ 2 = _); cbn; field|].
    destruct k as [|k]; [rewrite (Q' 1%nat : (6 * q) ^ 3 = _), (N' 1%nat : (- (6 * q)) ^ 3 = _), Odd by (cbn; lra); cbn; field|].
    destruct k as [|k]; [rewrite (Q 2%nat : (6 * q) ^ 4 = _), (N 2%nat : (- (6 * q)) ^ 4 = _); cbn; field|].
    destruct k as [|k]; [rewrite (Q' 2%nat : (6 * q) ^ 5 = _), (N' 2%nat : (- (6 * q)) ^ 5 = _), Odd by (cbn; lra); cbn; field|].
    destruct k as [|k]; [rewrite (Q 3%nat : (6 * q) ^ 6 = _), (N 3%nat : (- (6 * q)) ^ 6 = _); cbn; field|].
    destruct k as [|k]; [rewrite (Q' 3%nat : (6 * q) ^ 7 = _), (N' 3%nat : (- (6 * q)) ^ 7 = _), Odd by (cbn; lra); cbn; field|].
    destruct k as [|k]; [rewrite (Q 4%nat : (6 * q) ^ 8 = _), (N 4%nat : (- (6 * q)) ^ 8 = _); cbn; field|].
    destruct k as [|k]; [rewrite (Q' 4%nat : (6 * q) ^ 9 = _), (N' 4%nat : (- (6 * q)) ^ 9 = _), Odd by (cbn; lra); cbn; field|]. lia. }
  split; [exact T|exact A].
Qed.

Lemma C37_uniform_proof : forall left right : R, exists (m : moms RN) (sigma : R),
  (forall eig last, d_uniform (N := RN) eig last left right = u2_new_std eig last ((left + right) / 2 : R) sigma m 0) /\
  (right < left -> sigma < 0) /\ (left = right -> sigma = 0) /\
  (left < right -> 0 < sigma /\
     average uniform_density (at_point left) (at_point right) (fun x => x) ((left + right) / 2) /\
     average uniform_density (at_point left) (at_point right) (fun x => (x - (left + right) / 2) ^ 2) (sigma ^ 2) /\
     forall k, (k <= 8)%nat ->
       average uniform_density (at_point left) (at_point right) (fun x => ((x - (left + right) / 2) / sigma) ^ k) (stdmom m k)).
Proof.
  intros left right. set (q := sqrt (1 / 12)). exists uniform_moments, (q * (right - left)).
  assert (Hq : 0 < q) by (apply sqrt_lt_R0; lra). assert (Eq : q * q = 1 / 12) by (apply sqrt_sqrt; lra).
  split; [|split; [|split]].
  - intros eig last. unfold d_uniform. cbn [nofZ RN nmul nadd ndiv nsqrt nsub T]. rewrite (Rplus_comm right left). reflexivity.
  - intro H. nra.
  - intros ->. ring.
  - intro H. set (s := q * (right - left)). assert (Hs : 0 < s) by (unfold s; nra).
    set (c := (left + right) / 2).
    destruct (uniform_std left right H) as [T A]. fold c q s in T, A.
    split; [exact Hs|]. split; [|split; [|exact A]].
    + exists (right - left). split; [lra|]. split; [exact T|].
      generalize (uniform_rint left right 1 0 1 H ltac:(lra)). apply rint_ext; [intro x; rr; field|rr; unfold c; cbn; field].
    + destruct (A 2%nat) as (t & Ht & It & J); [lia|]. exists t. split; [exact Ht|]. split; [exact It|].
      generalize (rint_scal (s ^ 2) _ _ J). apply rint_ext; [intro x; rr; field; lra|rr; cbn [stdmom]; ring].
Qed.
