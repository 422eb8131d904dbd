(** * CheckMoments: model of /repo/uncertainties/internal/checkmoments.hpp

    Eigen's SelfAdjointEigenSolver is an oracle [eig]: it gets the lower triangle
    of the matrix (row [i] has [i + 1] entries) and answers with the list of the
    eigenvalues, or with [None] when [info() != Success].  Theorems quantify over
    the oracle. *)

From Coq Require Import List ZArith Bool.
From Verif Require Import Base Num HessGrad.
Import ListNotations.

Section CheckMoments.
  Context {N : Num}.
  Variable eig : list (list N) -> option (list N).
  Local Open Scope num_scope.

  (** checkmoments.hpp 65-72: one step of the scan; the state is
      (max_nonneg, max_neg). *)
  Definition ham_step (s : N * N) (a : N) : N * N :=
    let '(max_nonneg, max_neg) := s in
    if (a <? n0) && (a <? max_neg) then (max_nonneg, a)
    else if (n0 <=? a) && (max_nonneg <? a) then (a, max_neg)
    else (max_nonneg, max_neg).

  (** checkmoments.hpp 56-84: [hamburger]. *)
  Definition hamburger (mat : list (list N)) : outcome N :=
    match eig mat with
    | None => Throw RuntimeError
    | Some v =>
        let '(max_nonneg, max_neg) := fold_left ham_step v (nofZ (-1), nofZ 1) in
        Ret (if max_nonneg <? n0 then nofZ 1
             else if n0 <? max_neg then nofZ 0
             else max_neg / max_nonneg)
    end.

  (** checkmoments.hpp 99-100: the entry [M(i, j)] for [i >= j], for an array of
      [n = 6 + offset] moments. *)
  Definition hankel_entry (moments : list N) (i j : nat) : N :=
    let offset := (Z.of_nat (length moments) - 6)%Z in
    let idx := (Z.of_nat i + Z.of_nat j - 3 + offset)%Z in
    if (0 <=? idx)%Z then nth (Z.to_nat idx) moments n0
    else nofZ (Z.abs (Z.rem (idx + offset) 2)).
  Definition hankel (moments : list N) : list (list N) :=
    map (fun i => map (fun j => hankel_entry moments i j) (seq 0 (S i))) (seq 0 5).

  (** checkmoments.hpp 94-105: [check_moments]; the static_assert 96 allows only
      arrays of 6 or 7 elements. *)
  Definition check_moments (moments : list N) : outcome N := hamburger (hankel moments).

  (** checkmoments.hpp 115-154: [check_moments_throw]. *)
  Definition check_moments_throw (moments : list N) (threshold : N) : outcome unit :=
    _ <- assert_ (n0 <=? threshold);;
    cond <- check_moments moments;;
    if (cond <? - threshold) || (n0 <? cond) then Throw InvalidArgument else Ret tt.
End CheckMoments.

(** The arrays of moments as lists: standardized moments 3 to 8, and central
    moments 2 to 8. *)
Definition moms_list {N : Num} (p : moms N) : list N := [v3 p; v4 p; v5 p; v6 p; v7 p; v8 p].
Record cmoms {N : Num} : Type := mkCM { c2nd : N; cnext : moms N }.
Arguments cmoms N : clear implicits.
Definition cmoms_list {N : Num} (c : cmoms N) : list N := c2nd c :: moms_list (cnext c).
