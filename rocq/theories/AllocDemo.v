(** * AllocDemo: concrete failed calls *)

From Coq Require Import List ZArith Bool Reals Lra Lia.
From Verif Require Import Base Num Map UReal World Sums SpecLin SpecObs SpecOrder URealFacts URealR URealProofs Demo
  Alloc SpecAlloc.
Import ListNotations.
Local Open Scope R_scope.

(** x = UReal(1, 1); y = UReal(5, 1); z = x + y; t = 0; u = UReal(2, 1) *)
Definition adem : list (call RN) :=
  [CNew 0%nat 1 1; CNew 1%nat 5 1; CAdd 2%nat 0%nat 1%nat; CConst 3%nat 0; CNew 4%nat 2 1].
Lemma adem_legal : legal adem.
Proof.
  split; [repeat constructor|]. split; [|apply max_new_ge; cbn; lia].
  unfold adem. cbn. decide_signs. cbn. repeat split; exact I.
Qed.

Definition adem_w : world RN :=
  mkW 3 (fun u => match u with
                  | 0%nat => mkU 1 1 1 []
                  | 1%nat => mkU 2 1 5 []
                  | 2%nat => mkU invalid_id (-1) (1 + 5) [(1%Z, 1 * 1); (2%Z, 0 + 1 * 1)]
                  | 3%nat => mkU 0 0 0 []
                  | 4%nat => mkU 3 1 2 []
                  | _ => u_default
                  end).

Lemma adem_run : exists w, run w_init adem = Ret w /\ w_last w = 3%Z /\ forall u, w_var w u = w_var adem_w u.
Proof.
  unfold adem. cbn -[IZR].
  assert (L : forall a : R, 0 <= a -> Rltb a 0 = false) by (intros a Ha; destruct (Rltb_spec a 0); [lra|reflexivity]).
  rewrite !L by lra. cbn -[IZR].
  eexists. split; [reflexivity|]. split; [reflexivity|].
  intro u. do 5 (destruct u as [|u]; [reflexivity|]). reflexivity.
Qed.

Lemma adem_add L (w : world RN) : (forall u, w_var w u = w_var adem_w u) -> exists w', exec_a L 1 w (CAddA 3%nat 2%nat) = (w', None) /\
  u_n (w_var w' 3%nat) = 0 /\ u_s (w_var w' 3%nat) = 0 /\ u_cov (w_var w' 3%nat) (w_var w' 3%nat) = 1 /\
  u_cov (w_var w' 3%nat) (w_var w' 0%nat) = 1 /\ u_cov (w_var w 3%nat) (w_var w 0%nat) = 0.
Proof.
  intro H. cbn [exec_a]. rewrite !H. cbn -[IZR].
  destruct (Reqb_spec 1 1); [|lra]. cbn -[IZR].
  eexists. split; [reflexivity|]. cbn -[IZR]. unfold upd. cbn -[IZR]. rewrite !H. cbn -[IZR].
  repeat split; try ring. unfold u_s. cbn -[IZR]. destruct (Rleb_spec 0 0); [reflexivity|lra].
Qed.
Lemma adem_mul L (w : world RN) : (forall u, w_var w u = w_var adem_w u) -> exists w', exec_a L 1 w (CMulA 4%nat 1%nat) = (w', None) /\
  u_n (w_var w' 4%nat) = 2 /\ u_s (w_var w' 4%nat) = 1 /\ u_cov (w_var w' 4%nat) (w_var w' 4%nat) = 25.
Proof.
  intro H. cbn [exec_a]. rewrite !H. cbn -[IZR].
  destruct (Reqb_spec 5 1); [lra|]. cbn -[IZR].
  eexists. split; [reflexivity|]. cbn -[IZR]. unfold upd. cbn -[IZR].
  repeat split; try ring. unfold u_s. cbn -[IZR]. destruct (Rleb_spec 0 1); [reflexivity|lra].
Qed.
Lemma adem_copy L (w : world RN) : good_map_lib L -> (forall u, w_var w u = w_var adem_w u) -> exists w', exec_a L 0 w (CCopy 3%nat 2%nat) = (w', None) /\
  u_n (w_var w' 3%nat) = 6 /\ u_n (w_var w 3%nat) = 0.
Proof.
  intros G H. cbn [exec_a]. rewrite !H. cbn [Nat.eqb w_var adem_w usigma uid usdev umu]. unfold a_copy_assign. cbn [usigma].
  destruct (G [] [(1%Z, 1 * 1); (2%Z, 0 + 1 * 1)]) as (_ & C & _).
  match goal with |- context [cp_count L ?a ?b] => replace (cp_count L a b) with 2%nat by (symmetry; exact C) end.
  eexists. split; [reflexivity|]. cbn -[IZR]. unfold upd, u_n. cbn -[IZR]. split; [ring|reflexivity].
Qed.

Lemma C68_failed_assignment_refuted_proof : forall L, good_map_lib L -> exists cs w, legal cs /\ run w_init cs = Ret w /\
  (exists w', exec_a L 1 w (CAddA 3%nat 2%nat) = (w', None) /\
     u_n (w_var w' 3%nat) = 0 /\ u_s (w_var w' 3%nat) = 0 /\ u_cov (w_var w' 3%nat) (w_var w' 3%nat) = 1 /\
     u_cov (w_var w' 3%nat) (w_var w' 0%nat) = 1 /\ u_cov (w_var w 3%nat) (w_var w 0%nat) = 0) /\
  (exists w', exec_a L 1 w (CMulA 4%nat 1%nat) = (w', None) /\
     u_n (w_var w' 4%nat) = 2 /\ u_s (w_var w' 4%nat) = 1 /\ u_cov (w_var w' 4%nat) (w_var w' 4%nat) = 25) /\
  (exists w', exec_a L 0 w (CCopy 3%nat 2%nat) = (w', None) /\
     u_n (w_var w' 3%nat) = 6 /\ u_n (w_var w 3%nat) = 0).
Proof.
  intros L G. destruct adem_run as (w & E & _ & H). exists adem, w. split; [exact adem_legal|]. split; [exact E|].
  split; [now apply adem_add|]. split; [now apply adem_mul|now apply adem_copy].
Qed.

Lemma reusing_lib_good (V : Type) : good_map_lib (reusing_lib V).
Proof.
  intros m m'. cbn. split; [lia|]. split; [lia|].
  intros _ S k. assert (K : forall n (l : list (Z * V)), msorted l -> msorted (firstn n l) /\
    forall i, In i (map fst (firstn n l)) -> In i (map fst l)).
  { induction n as [|n IH]; intros [|[i a] l] Sl; cbn; try (split; [apply msorted_nil|tauto]).
    apply msorted_inv in Sl as [S1 S2]. destruct (IH l S1) as (A & B). split.
    - constructor; [exact A|]. apply Forall_forall. intros j Hj. apply S2, B, Hj.
    - intros j [<-|Hj]; [now left|right; auto]. }
  destruct (K (length m + k)%nat m' S) as (A & B). split; [exact A|]. intros i Hi. right. auto.
Qed.
