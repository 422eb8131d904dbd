(** * ThreadCalls: threads that call the functions of ureal.hpp on shared variables

    Each thread makes a sequence of calls (World.v) on variables some of which other
    threads use too.  A call is not atomic: it reads the members (ureal.hpp 291-294)
    of its operands one at a time, computes, and writes the members of the variable
    it assigns one at a time, in any order; steps of different threads interleave
    arbitrarily.  The only atomic operation is the increment of internal::last_id
    (impl.hpp 46, ureal.hpp 350).

    Simplifications: a call reads all it needs before it writes (what it reads back of
    its own writes is not seen by other threads unless there is a race); the map sigma
    is one memory location; a query through a const reference (n, s, cov, ...) is
    represented by copying the variable to one of the thread, which reads the same
    members.  Memory is sequentially consistent, which the C++ standard grants to
    programs without data races. *)

From Coq Require Import List ZArith Bool Relation_Operators.
From Verif Require Import Base Num Map UReal World SpecOrder.
Import ListNotations.

Inductive field : Type := Fid | Fsdev | Fmu | Fsigma.
Definition all_fields : list field := [Fid; Fsdev; Fmu; Fsigma].

Section ThreadCalls.
  Context {N : Num}.

  (** Copy one member. *)
  Definition put (f : field) (src dst : ureal N) : ureal N :=
    match f with
    | Fid => mkU (uid src) (usdev dst) (umu dst) (usigma dst)
    | Fsdev => mkU (uid dst) (usdev src) (umu dst) (usigma dst)
    | Fmu => mkU (uid dst) (usdev dst) (umu src) (usigma dst)
    | Fsigma => mkU (uid dst) (usdev dst) (umu dst) (usigma src)
    end.

  (** The members a call writes, given the operands read and how it ended: s() and
      var() (ureal.hpp 435-444, 551-559) write only sdev, and only if it is not
      cached; the others all the members; nothing if the call throws. *)
  Definition write_fields (c : call N) (buf : nat -> ureal N) (o : outcome unit) : list field :=
    match o with
    | Ret _ =>
        match c with
        | CS v | CVar v =>
            if (0 <=? uid (buf v))%Z then [] else if nltb (usdev (buf v)) n0 then [Fsdev] else []
        | _ => all_fields
        end
    | _ => []
    end.

  Inductive activity : Type :=
  | Idle
  | Reading (c : call N) (last : Z) (rd : list (nat * field)) (buf : nat -> ureal N)
      (* last: value of the counter before the call; rd: still to read; buf: what was read *)
  | Writing (c : call N) (x : ureal N) (wr : list field).
      (* x: the value to write; wr: members still to write *)
  Record thr : Type := mkThr { t_todo : list (call N); t_now : activity }.

  Record conf : Type := mkConf { cf_last : Z; cf_mem : nat -> ureal N; cf_thr : list thr }.

  Definition to_read (c : call N) : list (nat * field) := list_prod (reads c) all_fields.

  (** One step of a thread: (counter, memory, thread) before and after. *)
  Inductive tstep : Z -> (nat -> ureal N) -> thr -> Z -> (nat -> ureal N) -> thr -> Prop :=
  | ts_begin l m c cs :
      tstep l m (mkThr (c :: cs) Idle)
            (if is_new c then wrap32 (l + 1) else l) m (mkThr cs (Reading c l (to_read c) (fun _ => u_default)))
  | ts_read l m cs c l0 r1 u f r2 buf :
      tstep l m (mkThr cs (Reading c l0 (r1 ++ (u, f) :: r2) buf))
            l m (mkThr cs (Reading c l0 (r1 ++ r2) (upd buf u (put f (m u) (buf u)))))
  | ts_compute l m cs c l0 buf :
      tstep l m (mkThr cs (Reading c l0 [] buf))
            l m (mkThr cs (Writing c (w_var (fst (exec (mkW l0 buf) c)) (writes c))
                                     (write_fields c buf (snd (exec (mkW l0 buf) c)))))
  | ts_write l m cs c x f1 f f2 :
      tstep l m (mkThr cs (Writing c x (f1 ++ f :: f2)))
            l (upd m (writes c) (put f x (m (writes c)))) (mkThr cs (Writing c x (f1 ++ f2)))
  | ts_end l m cs c x :
      tstep l m (mkThr cs (Writing c x [])) l m (mkThr cs Idle).

  Fixpoint set_nth (i : nat) (t : thr) (l : list thr) : list thr :=
    match l, i with
    | [], _ => []
    | _ :: l', O => t :: l'
    | a :: l', S i' => a :: set_nth i' t l'
    end.

  Inductive cstep : conf -> conf -> Prop :=
  | cs_intro l m ts i t l' m' t' :
      nth_error ts i = Some t -> tstep l m t l' m' t' ->
      cstep (mkConf l m ts) (mkConf l' m' (set_nth i t' ts)).
  Definition csteps : conf -> conf -> Prop := clos_refl_trans_1n conf cstep.

  (** The threads start in a state [w] of the program. *)
  Definition start (w : world N) (ts : list (list (call N))) : conf :=
    mkConf (w_last w) (w_var w) (map (fun cs => mkThr cs Idle) ts).
  Definition finished (c : conf) : Prop := Forall (fun t => t = mkThr [] Idle) (cf_thr c).

  (** The accesses a thread may do next. *)
  Definition may_read (t : thr) (u : nat) (f : field) : Prop :=
    match t_now t with Reading _ _ rd _ => In (u, f) rd | _ => False end.
  Definition may_write (t : thr) (u : nat) (f : field) : Prop :=
    match t_now t with Writing c _ wr => u = writes c /\ In f wr | _ => False end.
  (** A data race: two threads may access the same memory location next, one of
      them to write it. *)
  Definition race (c : conf) : Prop :=
    exists i j t t' u f, i <> j /\ nth_error (cf_thr c) i = Some t /\ nth_error (cf_thr c) j = Some t' /\
      may_write t u f /\ (may_read t' u f \/ may_write t' u f).
End ThreadCalls.
Arguments thr N : clear implicits.
Arguments conf N : clear implicits.
Arguments activity N : clear implicits.
