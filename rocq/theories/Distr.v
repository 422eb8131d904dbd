(** * Distr: model of /repo/uncertainties/distr.hpp and of the table of binomial
    coefficients of /repo/uncertainties/impl.hpp *)

From Coq Require Import List ZArith Bool.
From Verif Require Import Base Num UReal Stat HessGrad CheckMoments UReal2.
Import ListNotations.

(** impl.hpp 66: an array of 9 x 9 ints without initialiser; [None] is an element not
    yet written. *)
Definition itable : Type := list (list (option Z)).
Definition table_get (C : itable) (n k : nat) : outcome Z :=
  row <- buf_get n C;;
  c <- buf_get k row;;
  match c with Some z => Ret z | None => UB end.
Definition table_set (n k : nat) (z : Z) (C : itable) : outcome itable :=
  row <- buf_get n C;;
  row' <- buf_set k (Some z) row;;
  buf_set n row' C.

(** impl.hpp 65-77: [compute_binom_coeffs]. *)
Definition binom_step (C : itable) (nk : nat * nat) : outcome itable :=
  let '(n, k) := nk in
  if (n =? k)%nat || (k =? 0)%nat then table_set n k 1 C
  else
    a <- table_get C (n - 1) (k - 1);;
    b <- table_get C (n - 1) k;;
    table_set n k (a + b) C.
Definition compute_binom_coeffs : outcome itable :=
  ofold binom_step (flat_map (fun n => map (fun k => (n, k)) (seq 0 (S n))) (seq 0 9))
        (repeat (repeat None 9) 9).

(** distr.hpp 50-56: [binom_coeff]. *)
Definition binom_coeff (n k : Z) : outcome Z :=
  _ <- assert_ ((0 <=? n) && (n <=? 8))%Z;;
  _ <- assert_ ((0 <=? k) && (k <=? n))%Z;;
  C <- compute_binom_coeffs;;
  table_get C (Z.to_nat n) (Z.to_nat k).

Section Distr.
  Context {N : Num}.
  Variable eig : list (list N) -> option (list N).
  Local Open Scope num_scope.

  (** n % 2 == 0 ? 1 : -1 *)
  Definition parity_sign (n : nat) : Z := if Nat.even n then 1 else -1.

  (** distr.hpp 60-63: the powers of the mean. *)
  Definition mean_powers (zm : list N) : outcome (list N) :=
    ofold (fun mun i => p <- buf_get (i - 1) mun;; z <- buf_get 0 zm;; buf_set i (p * z) mun)
          (seq 1 8) (n1 :: repeat n0 8).
  (** distr.hpp 69-73: the loop over [k], adding to cm[i]. *)
  Definition cm_loop (zm mun : list N) (n : nat) (c : N) : outcome N :=
    ofold (fun c k =>
             b <- binom_coeff (Z.of_nat n) (Z.of_nat k);;
             z <- buf_get (k - 1) zm;;
             p <- buf_get (n - k) mun;;
             Ret (c + nofZ (parity_sign n * parity_sign k * b) * z * p))
          (seq 2 (n - 2)) c.
  (** distr.hpp 58-77: [central_moments]; [zm] has 8 elements. *)
  Definition central_moments (zm : list N) : outcome (list N) :=
    mun <- mean_powers zm;;
    omapM (fun n =>
             p <- buf_get n mun;;
             c <- cm_loop zm mun n (nofZ (parity_sign n * (1 - Z.of_nat n)) * p);;
             z <- buf_get (n - 1) zm;;
             Ret (c + z))
          (seq 2 7).

  (** distr.hpp 79-90: [std_moments]; [m] has 7 elements. *)
  Definition std_moments (m : list N) : outcome (list N) :=
    m0 <- buf_get 0 m;;
    let s := nsqrt m0 in
    '(_, stdm) <- ofold (fun st i =>
                           let sn := fst st * s in
                           c <- buf_get (i + 1) m;;
                           Ret (sn, snd st ++ [c / sn]))
                        (seq 0 6) (m0, []);;
    Ret stdm.

  (** distr.hpp 102-114: [normal]. *)
  Definition normal_moments : moms N :=
    mkM (nofZ 0) (nofZ 3) (nofZ 0) (nofZ (3 * 5)) (nofZ 0) (nofZ (3 * 5 * 7)).
  Definition d_normal (last : Z) (mu sigma : N) : Z * outcome (ureal2 N) :=
    u2_new_std eig last mu sigma normal_moments n0.

  (** distr.hpp 131-143 *)
  Definition chisquare_moments (k : Z) : moms N :=
    let K := nofZ k in
    let sqrtK := nsqrt K in
    let sqrt2 := nsqrt (nofZ 2) in
    mkM (nofZ 2 * sqrt2 / sqrtK)
        (nofZ 3 + nofZ 12 / K)
        (sqrt2 * (nofZ 20 + nofZ 48 / K) / sqrtK)
        (nofZ 15 + (nofZ 260 + nofZ 480 / K) / K)
        (sqrt2 * ((nofZ 2880 / K + nofZ 1848) / K + nofZ 210) / sqrtK)
        (nofZ 105 + ((nofZ 40320 / K + nofZ 29232) / K + nofZ 4760) / K).
  (** distr.hpp 121-145: [chisquare]; the argument is an int. *)
  Definition d_chisquare (last : Z) (k : Z) : Z * outcome (ureal2 N) :=
    if (k <? 0)%Z then (last, Throw InvalidArgument)
    else if (k =? 0)%Z then (last, Ret (u2_const (nofZ 0)))
    else u2_new_std eig last (nofZ k) (nsqrt (nofZ 2) * nsqrt (nofZ k)) (chisquare_moments k) n0.

  (** distr.hpp 156-163 *)
  Definition uniform_moments : moms N :=
    mkM (nofZ 0) (nofZ (3 * 3) / nofZ 5) (nofZ 0) (nofZ (3 * 3 * 3) / nofZ 7) (nofZ 0) (nofZ (3 * 3)).
  (** distr.hpp 152-168: [uniform]. *)
  Definition d_uniform (last : Z) (left right : N) : Z * outcome (ureal2 N) :=
    let mu := (right + left) / nofZ 2 in
    let sigma := nsqrt (nofZ 1 / nofZ (3 * 2 * 2)) * (right - left) in
    u2_new_std eig last mu sigma uniform_moments n0.
End Distr.
