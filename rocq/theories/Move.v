(** * Move: std::move and std::swap of variables

    Neither class declares special member functions (ureal.hpp 288-375;
    ureal2.hpp 476-585), so the compiler provides the move constructor
    and the move assignment: they move each member.  The id, the deviation and
    the mean are numbers and moving them copies them; the containers
    (ureal.hpp 294 [sigma]; hessgrad.hpp 121-124 [diagmap], [trimap]) are
    std::map's, which leave their source in an unspecified state.  What is left
    is therefore an argument of the events below; it is empty in all the usual
    implementations of the standard library.  Simplification: the moments kept
    in a node of [diagmap] are moved together with the node. *)

From Coq Require Import List ZArith Bool.
From Verif Require Import Base Num Map UReal World HessGrad Moments CheckMoments UReal2 World2.
Import ListNotations.

Section Move.
  Context {N : Num}.
  (** Eigen::SelfAdjointEigenSolver (checkmoments.hpp 62-66). *)
  Variable eig : list (list N) -> option (list N).

  (** What remains of the source of a move of UReal (ureal.hpp 291-294). *)
  Definition u_moved_from (x : ureal N) (rest : list (Z * N)) : ureal N :=
    mkU (uid x) (usdev x) (umu x) rest.
  (** The same for UReal2 (ureal2.hpp 489-490, hessgrad.hpp 121-124). *)
  Definition u2_moved_from (x : ureal2 N) (restd : list (Z * diag N)) (restt : list ((Z * Z) * N)) : ureal2 N :=
    mkU2 (mkHG restd restt) (u2mu x).

  Inductive event : Type :=
  | VCall (c : call2 N)
  | VMove1 (v x : nat) (rest : list (Z * N))              (* v = std::move(x), of type UReal *)
  | VMove2 (v x : nat) (restd : list (Z * diag N)) (restt : list ((Z * Z) * N)).
                                                          (* v = std::move(x), of type UReal2 *)

  (** One event.  In v = std::move(v) the container is moved to itself, which
      leaves it unspecified too. *)
  Definition mexec (w : world2 N) (e : event) : world2 N * outcome unit :=
    match e with
    | VCall c => exec2 eig w c
    | VMove1 v x rest =>
        let a := w_var (w2_w w) x in
        (mkW2 (w_set (w_set (w2_w w) v a) x (u_moved_from a rest)) (w2_var w), Ret tt)
    | VMove2 v x restd restt =>
        let a := w2_var w x in
        (mkW2 (w2_w w) (upd2 (upd2 (w2_var w) v a) x (u2_moved_from a restd restt)), Ret tt)
    end.

  (** Histories, as in World2.v. *)
  Fixpoint mrun (w : world2 N) (es : list event) : outcome (world2 N) :=
    match es with
    | [] => Ret w
    | e :: es' =>
        match mexec w e with
        | (w', Ret _) => mrun w' es'
        | (w', Throw _) => mrun w' es'
        | (_, UB) => UB
        | (_, Assert) => Assert
        end
    end.

  (** std::swap(v, x), and so std::sort, std::reverse, ...: with a local
      variable t, t = std::move(v); v = std::move(x); x = std::move(t). *)
  Definition swap1 (v x t : nat) (r1 r2 r3 : list (Z * N)) : list event :=
    [VMove1 t v r1; VMove1 v x r2; VMove1 x t r3].
  Definition swap2 (v x t : nat) (r1 r2 r3 : list (Z * diag N) * list ((Z * Z) * N)) : list event :=
    [VMove2 t v (fst r1) (snd r1); VMove2 v x (fst r2) (snd r2); VMove2 x t (fst r3) (snd r3)].
End Move.
Arguments event N : clear implicits.
