(** * ThreadCalls2: threads that call the functions of both classes on shared variables

    As ThreadCalls.v, for the calls of World2.v: variables of type UReal and UReal2,
    which share the counter internal::last_id (impl.hpp 46).  A call is not atomic: it
    reads the members of its operands one at a time, computes, and writes the members
    of the variable it assigns one at a time, in any order; steps of different threads
    interleave arbitrarily.  The only atomic operation is the increment of the counter
    (ureal.hpp 350, ureal2.hpp 526 and 562).

    The members of a UReal2 are the two maps of its HessGrad (hessgrad.hpp 121, 124)
    and mu (ureal2.hpp 490).  None of them is mutable: its queries only read.

    Simplifications: a call reads all it needs before it writes (what it reads back of
    its own writes is not seen by other threads unless there is a race); a map is one
    memory location; a query through a const reference (n, m, cov, ...) is represented
    by copying the variable to one of the thread, which reads the same members.  The
    static members zero and zerodiag of HessGrad (hessgrad.hpp 131-132) are constant and
    left out.  Memory is sequentially consistent, which the C++ standard grants to
    programs without data races. *)

From Coq Require Import List ZArith Bool Relation_Operators.
From Verif Require Import Base Num Map UReal World HessGrad Moments CheckMoments UReal2 World2 SpecOrder ThreadCalls.
Import ListNotations.

Inductive field2 : Type := Fdiag | Ftri | Fmean.
(** Memory locations: a member of a variable of type UReal, or UReal2. *)
Inductive cell : Type := C1 (v : nat) (f : field) | C2 (v : nat) (f : field2).
Definition cells1 (v : nat) : list cell := map (C1 v) all_fields.
Definition cells2 (v : nat) : list cell := [C2 v Fdiag; C2 v Ftri; C2 v Fmean].

Section ThreadCalls2.
  Context {N : Num}.
  (** Eigen::SelfAdjointEigenSolver (checkmoments.hpp 62-66). *)
  Variable eig : list (list N) -> option (list N).

  (** The variables of both types. *)
  Record mem : Type := mkMem { mem1 : nat -> ureal N; mem2 : nat -> ureal2 N }.
  Definition with_counter (l : Z) (m : mem) : world2 N := mkW2 (mkW l (mem1 m)) (mem2 m).
  Definition mem_of (w : world2 N) : mem := mkMem (w_var (w2_w w)) (w2_var w).
  Definition mem_empty : mem := mkMem (fun _ => u_default) (fun _ => u2_default).

  (** Copy one member. *)
  Definition put2 (f : field2) (src dst : ureal2 N) : ureal2 N :=
    match f with
    | Fdiag => mkU2 (mkHG (diagmap (u2hg src)) (trimap (u2hg dst))) (u2mu dst)
    | Ftri => mkU2 (mkHG (diagmap (u2hg dst)) (trimap (u2hg src))) (u2mu dst)
    | Fmean => mkU2 (u2hg dst) (u2mu src)
    end.
  Definition copy_cell (k : cell) (src dst : mem) : mem :=
    match k with
    | C1 v f => mkMem (upd (mem1 dst) v (put f (mem1 src v) (mem1 dst v))) (mem2 dst)
    | C2 v f => mkMem (mem1 dst) (upd2 (mem2 dst) v (put2 f (mem2 src v) (mem2 dst v)))
    end.

  (** The locations a call reads: the members of its operands. *)
  Definition cells_read (c : call2 N) : list cell :=
    match c with E1 c => flat_map cells1 (reads c) | c => flat_map cells2 (reads2 c) end.
  (** The locations it writes, given the operands read and how it ended: see
      [write_fields] for UReal; all the members of the result for UReal2 (the
      assignments of the class are those generated by the compiler); nothing if the
      call throws. *)
  Definition cells_written (c : call2 N) (buf : mem) (o : outcome unit) : list cell :=
    match c with
    | E1 c => map (C1 (writes c)) (write_fields c (mem1 buf) o)
    | c => match o with Ret _ => cells2 (writes2 c) | _ => [] end
    end.
  (** The counter after the call: ureal.hpp 350; ureal2.hpp 526 and 562, after the
      checks of the moments. *)
  Definition counter_after (l : Z) (c : call2 N) : Z :=
    match c with
    | E1 c => if is_new c then wrap32 (l + 1) else l
    | ENew _ n m thr => fst (u2_new eig l n m thr)
    | ENewStd _ n s m thr => fst (u2_new_std eig l n s m thr)
    | _ => l
    end.

  Inductive activity2 : Type :=
  | Idle2
  | Reading2 (c : call2 N) (last : Z) (rd : list cell) (buf : mem)
      (* last: value of the counter before the call; rd: still to read; buf: what was read *)
  | Writing2 (c : call2 N) (x : mem) (wr : list cell).
      (* x: holds the value to write; wr: still to write *)
  Record thr2 : Type := mkThr2 { t2_todo : list (call2 N); t2_now : activity2 }.
  Record conf2 : Type := mkConf2 { cf2_last : Z; cf2_mem : mem; cf2_thr : list thr2 }.

  (** One step of a thread: (counter, memory, thread) before and after. *)
  Inductive tstep2 : Z -> mem -> thr2 -> Z -> mem -> thr2 -> Prop :=
  | ts2_begin l m c cs :
      tstep2 l m (mkThr2 (c :: cs) Idle2)
             (counter_after l c) m (mkThr2 cs (Reading2 c l (cells_read c) mem_empty))
  | ts2_read l m cs c l0 r1 k r2 buf :
      tstep2 l m (mkThr2 cs (Reading2 c l0 (r1 ++ k :: r2) buf))
             l m (mkThr2 cs (Reading2 c l0 (r1 ++ r2) (copy_cell k m buf)))
  | ts2_compute l m cs c l0 buf :
      tstep2 l m (mkThr2 cs (Reading2 c l0 [] buf))
             l m (mkThr2 cs (Writing2 c (mem_of (fst (exec2 eig (with_counter l0 buf) c)))
                                        (cells_written c buf (snd (exec2 eig (with_counter l0 buf) c)))))
  | ts2_write l m cs c x k1 k k2 :
      tstep2 l m (mkThr2 cs (Writing2 c x (k1 ++ k :: k2)))
             l (copy_cell k x m) (mkThr2 cs (Writing2 c x (k1 ++ k2)))
  | ts2_end l m cs c x :
      tstep2 l m (mkThr2 cs (Writing2 c x [])) l m (mkThr2 cs Idle2).

  Fixpoint set_nth2 (i : nat) (t : thr2) (l : list thr2) : list thr2 :=
    match l, i with
    | [], _ => []
    | _ :: l', O => t :: l'
    | a :: l', S i' => a :: set_nth2 i' t l'
    end.

  Inductive cstep2 : conf2 -> conf2 -> Prop :=
  | cs2_intro l m ts i t l' m' t' :
      nth_error ts i = Some t -> tstep2 l m t l' m' t' ->
      cstep2 (mkConf2 l m ts) (mkConf2 l' m' (set_nth2 i t' ts)).
  Definition csteps2 : conf2 -> conf2 -> Prop := clos_refl_trans_1n conf2 cstep2.

  (** The threads start in a state [w] of the program. *)
  Definition start2 (w : world2 N) (ts : list (list (call2 N))) : conf2 :=
    mkConf2 (w2_last w) (mem_of w) (map (fun cs => mkThr2 cs Idle2) ts).
  Definition finished2 (c : conf2) : Prop := List.Forall (fun t => t = mkThr2 [] Idle2) (cf2_thr c).

  (** The accesses a thread may do next. *)
  Definition may_read2 (t : thr2) (k : cell) : Prop :=
    match t2_now t with Reading2 _ _ rd _ => In k rd | _ => False end.
  Definition may_write2 (t : thr2) (k : cell) : Prop :=
    match t2_now t with Writing2 _ _ wr => In k wr | _ => False end.
  (** A data race: two threads may access the same memory location next, one of
      them to write it. *)
  Definition race2 (c : conf2) : Prop :=
    exists i j t t' k, i <> j /\ nth_error (cf2_thr c) i = Some t /\ nth_error (cf2_thr c) j = Some t' /\
      may_write2 t k /\ (may_read2 t' k \/ may_write2 t' k).
End ThreadCalls2.
Arguments mem N : clear implicits.
Arguments thr2 N : clear implicits.
Arguments conf2 N : clear implicits.
Arguments activity2 N : clear implicits.
