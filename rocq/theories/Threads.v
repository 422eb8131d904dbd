(** * Threads: concurrent construction of independent variables

    The only state shared between threads is the counter internal::last_id
    (impl.hpp 46, std::atomic<Id>).  The constructor UReal(n, s)
    (ureal.hpp 350-355) is split in its two observable steps: the atomic
    [++internal::last_id] (350), then the check and the end of the construction
    (351-354).  Steps of different threads interleave arbitrarily.  All the other
    functions of the class work on their arguments only and are left out;
    UReal2's constructors (ureal2.hpp 519-540, 550-567) use the same counter in the same
    way, after checking the moments: a rejected moment list does not reach the first step. *)

From Coq Require Import List ZArith Bool Lia Permutation Relation_Operators.
From Verif Require Import Base Num Map UReal World.
Import ListNotations.

Section Threads.
  Context {N : Num}.

  Record thread : Type := mkThread {
    t_prog : list (N * N);                  (* constructions still to do: UReal(n, s) *)
    t_pending : option (Z * (N * N));       (* id obtained, constructor not finished *)
    t_done : list (ureal N)                 (* variables constructed so far, latest first *)
  }.
  Definition t_start (prog : list (N * N)) : thread := mkThread prog None [].

  Record config : Type := mkConfig { c_counter : Z; c_threads : list thread }.

  (** One step of one thread, as a function of the shared counter. *)
  Definition thread_step (counter : Z) (t : thread) : option (Z * thread) :=
    match t_pending t with
    | Some (i, (n, s)) =>                                   (* 351-354 *)
        Some (counter,
              if nltb s n0 then mkThread (t_prog t) None (t_done t)           (* throws *)
              else mkThread (t_prog t) None (mkU i s n [] :: t_done t))
    | None =>
        match t_prog t with
        | [] => None
        | ns :: p =>                                        (* 350: id{++last_id} *)
            let i := wrap32 (counter + 1) in
            Some (i, mkThread p (Some (i, ns)) (t_done t))
        end
    end.

  (** Any thread may move. *)
  Inductive step : config -> config -> Prop :=
  | step_intro l1 t l2 c c' t' :
      thread_step c t = Some (c', t') ->
      step (mkConfig c (l1 ++ t :: l2)) (mkConfig c' (l1 ++ t' :: l2)).

  Definition steps := clos_refl_trans_1n config step.

  (** Run alone, the two steps are the sequential constructor of UReal.v. *)
  Lemma two_steps_are_u_new c n s p d :
    let '(c1, o) := u_new c n s in
    exists t1, thread_step c (mkThread ((n, s) :: p) None d) = Some (c1, t1) /\
    thread_step c1 t1 = Some (c1, mkThread p None (match o with Ret x => x :: d | _ => d end)).
  Proof.
    cbn. eexists. split; [reflexivity|]. cbn. destruct (nltb s n0); reflexivity.
  Qed.
End Threads.
Arguments thread N : clear implicits.
Arguments config N : clear implicits.
