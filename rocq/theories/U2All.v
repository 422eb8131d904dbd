(** * U2All: the function all of ureal2.hpp (C71) *)

From Coq Require Import List ZArith Bool Reals Lra Lia Sorted.
From Verif Require Import Base Num Map UReal World HessGrad Moments CheckMoments UReal2 World2 Sums SpecLin SpecObs
  HessProofs U2Facts U2World SpecU2 U2Values U2Ret SpecU2Run U2Proofs Demo Demo2 Demo2Mixed.
Import ListNotations.
Local Open Scope R_scope.

Lemma C71_all_proof : forall (N : Num) (eig : list (list N) -> option (list N)),
  nltb (n0 : N) n0 = false -> forall w, reachable2 eig w -> forall (v : nat) (p : N -> bool),
  let x := w2_var w v in let h := u2hg x in
  exists b, u2_all p x = Ret b /\
    (b = true <->
       p (u2mu x) = true /\
       (forall i d, In (i, d) (diagmap h) -> p (dgrad d) = true /\ p (dhh d) = true) /\
       (forall i j a, In ((i, j), a) (trimap h) -> p a = true)).
Proof.
  intros N eig Z0 w R v p x h. destruct (reachable2_wf Z0 eig w R) as (env & [_ W] & _).
  destruct (W v) as [OK _]. fold x in OK. fold h in OK. unfold u2_all. fold h.
  destruct (p (u2mu x)) eqn:Em; cbn [negb].
  2: { exists false. split; [reflexivity|]. split; [discriminate|]. intros (H & _). discriminate H. }
  destruct (forallb _ (diagmap h)) eqn:Ed; cbn [negb].
  2: { exists false. split; [reflexivity|]. split; [discriminate|]. intros (_ & H & _).
    enough (E : forallb (fun kd => p (dgrad (snd kd)) && p (dhh (snd kd))) (diagmap h) = true) by (rewrite E in Ed; discriminate Ed).
    apply forallb_forall. intros [i d] Hd. destruct (H i d Hd) as [A B]. cbn [snd]. now rewrite A, B. }
  rewrite forallb_forall in Ed. rewrite tri_visits_skip by exact OK. cbn [bind].
  eexists. split; [reflexivity|]. rewrite forallb_forall. split.
  - intro H. split; [reflexivity|]. split.
    + intros i d Hd. apply Ed in Hd. cbn [snd] in Hd. now apply andb_true_iff in Hd.
    + intros i j a Ha. exact (H _ (in_map (tvisit (diagmap h)) _ _ Ha)).
  - intros (_ & _ & H) t Ht. apply in_map_iff in Ht as ([[i j] a] & <- & Ha). exact (H i j a Ha).
Qed.

Lemma C71_coefficients_proof : forall eig (w : world2 RN), reachable2 eig w -> forall (v : nat) (p : RN -> bool), p 0 = true ->
  let x := w2_var w v in
  exists b, u2_all p x = Ret b /\
    (b = true <-> p (j_mean (jet_of x)) = true /\ (forall i, p (j_g (jet_of x) i) = true) /\
                  (forall i j, p (j_h (jet_of x) i j) = true)).
Proof.
  intros eig w R v p P0 x.
  destruct (reachable2_wf Rltb_00 eig w R) as (env & [_ W] & _). destruct (W v) as [OK _]. fold x in OK.
  destruct OK as (SD & ST & HK & _).
  destruct (C71_all_proof RN eig Rltb_00 w R v p) as (b & Eb & Hb). fold x in Eb, Hb.
  exists b. split; [exact Eb|]. rewrite Hb. cbn [jet_of j_mean j_g j_h]. split.
  - intros (Hm & Hd & Ht). split; [exact Hm|]. split.
    + intro i. destruct (mfind i (diagmap (u2hg x))) as [d|] eqn:E; [|exact P0]. now apply (Hd i d), mfind_In.
    + intros i j. destruct (Z.eqb_spec i j) as [->|D].
      * destruct (mfind j (diagmap (u2hg x))) as [d|] eqn:E; [|exact P0]. now apply (Hd j d), mfind_In.
      * destruct (mfind _ (trimap (u2hg x))) as [a|] eqn:E; [|exact P0]. eapply Ht. apply mfind_In. exact E.
  - intros (Hm & Hg & Hh). split; [exact Hm|]. split.
    + intros i d Hd. apply (In_mfind _ _ _ SD) in Hd. split.
      * specialize (Hg i). now rewrite Hd in Hg.
      * specialize (Hh i i). now rewrite Z.eqb_refl, Hd in Hh.
    + intros i j a Ha. destruct (HK i j (in_map fst _ _ Ha)) as (L & _).
      specialize (Hh i j). destruct (Z.eqb_spec i j) as [E|D]; [lia|].
      rewrite Z.min_l, Z.max_r in Hh by lia. now rewrite (In_mfind _ _ _ ST Ha) in Hh.
Qed.

Lemma C71_new_variable_proof : forall (N : Num) (eig : list (list N) -> option (list N)) last last' (n s : N) m thr x,
  u2_new_std eig last n s m thr = (last', Ret x) -> forall p : N -> bool,
  u2_all p x = Ret (p n && p s && p n0).
Proof.
  intros N eig last last' n s m thr x E p. unfold u2_new_std in E.
  destruct (nltb s n0); [discriminate E|].
  match type of E with context [match ?e with Ret _ => _ | _ => _ end] => destruct e; try discriminate E end.
  injection E as _ <-. unfold u2_all. cbn [u2mu]. destruct (p n); cbn [negb andb]; [|reflexivity].
  cbn. destruct (p s), (p n0); reflexivity.
Qed.

(** The first variable of the state of Demo2 has the coefficient 1, which is not below one. *)
Definition below_one (a : RN) : bool := Rltb a 1.
Lemma below_one_case : below_one 0 = true /\ exists w, reachable2 no_eig w /\
  u2_all below_one (w2_var w 0%nat) = Ret false.
Proof.
  split; [apply Rltb_true; lra|].
  destruct demo2_reachable as (w & HR & E & _ & _ & M & _). exists w. split; [exact HR|].
  unfold u2_all. rewrite M, E. cbn [diagmap forallb snd dgrad dhh].
  replace (below_one 0) with true by (symmetry; apply Rltb_true; lra).
  replace (below_one 1) with false; [reflexivity|]. symmetry. apply Rltb_false. lra.
Qed.
