(** * Stat2Proofs: stat.hpp on UReal2 (C73) *)

From Coq Require Import List ZArith Bool Reals Lra Lia.
From Verif Require Import Base Num Map UReal World HessGrad Moments CheckMoments UReal2 World2 Sums SpecLin SpecObs Stat StatProofs Stat2.
From Verif Require Import U2Facts U2World SpecU2 SpecU2Run U2Proofs U2Proofs2 URealR SpecProb SpecMom MomGiven MomDeg MomProd MomStats MomCum MomCov MomProofs.
Import ListNotations.
Local Open Scope R_scope.

Section OuterFacts.
  Context {A B : Type} (op : A -> A -> outcome B) (f : A -> A -> B).

  Lemma oouter_row_eq x ys : (forall y, In y ys -> op x y = Ret (f x y)) ->
    forall st, oouter_row op x ys st = outer_row f x ys st.
  Proof.
    induction ys as [|y ys IH]; intros H st; [reflexivity|]. cbn [oouter_row outer_row].
    rewrite (H y) by now left. cbn [bind]. destruct (buf_set (snd st) (f x y) (fst st)); cbn [bind]; try reflexivity.
    apply IH. intros z Hz. apply H. now right.
  Qed.
  Lemma oouter_rows_eq xs ys : (forall x y, In x xs -> In y ys -> op x y = Ret (f x y)) ->
    forall st, oouter_rows op xs ys st = outer_rows f xs ys st.
  Proof.
    induction xs as [|x xs IH]; intros H st; [reflexivity|]. cbn [oouter_rows outer_rows].
    rewrite oouter_row_eq by (intros y Hy; apply H; [now left|exact Hy]).
    destruct (outer_row f x ys st); cbn [bind]; try reflexivity.
    apply IH. intros z y Hz Hy. apply H; [now right|exact Hy].
  Qed.
  Lemma oouter_it_eq xs m : (forall x y, In x xs -> In y xs -> op x y = Ret (f x y)) ->
    oouter_it op xs m = outer_it f xs m.
  Proof. intro H. unfold oouter_it, outer_it. now rewrite oouter_rows_eq. Qed.
  Lemma oouter_vec_eq b0 xs : (forall x y, In x xs -> In y xs -> op x y = Ret (f x y)) ->
    oouter_vec op b0 xs = outer_vec f b0 xs.
  Proof. intro H. unfold oouter_vec, outer_vec. now apply oouter_it_eq. Qed.
End OuterFacts.

(** A total version of a call. *)
Definition got {B : Type} (b0 : B) (o : outcome B) : B := match o with Ret b => b | _ => b0 end.
Lemma got_ok {B : Type} (b0 : B) o : (exists b, o = Ret b) -> o = Ret (got b0 o).
Proof. intros (b & ->). reflexivity. Qed.

Section Layout.
  Context {N : Num} (op : ureal2 N -> ureal2 N -> outcome N).
  Let f x y := got n0 (op x y).
  Lemma layout xs : (forall x y, In x xs -> In y xs -> exists b, op x y = Ret b) ->
    exists V, oouter_vec op n0 xs = Ret V /\ length V = (length xs * length xs)%nat /\
      (forall i j x y, nth_error xs i = Some x -> nth_error xs j = Some y ->
         exists c, nth_error V (length xs * i + j) = Some c /\ op x y = Ret c) /\
      forall out, (length xs * length xs <= length out)%nat ->
        oouter_it op xs out = Ret (V ++ skipn (length xs * length xs) out).
  Proof.
    intro H. assert (E : forall x y, In x xs -> In y xs -> op x y = Ret (f x y)) by (intros; apply got_ok; auto).
    exists (flat_map (fun x => map (f x) xs) xs). split; [|split; [|split]].
    - rewrite (oouter_vec_eq op f n0 xs E). apply outer_vec_ok.
    - apply outer_length.
    - intros i j x y Hi Hj. exists (f x y). split; [now apply outer_nth|]. apply E; eapply nth_error_In; eassumption.
    - intros out Ho. rewrite (oouter_it_eq op f xs out E). now apply outer_it_ok.
  Qed.
End Layout.

Lemma nom_vector2_ok {N : Num} p (xs : list (ureal2 N)) : (forall x, In x xs -> exists m, u2_n p x = Ret m) ->
  forall mu, exists ms, nom_vector2_loop p xs mu = Ret (mu ++ ms) /\ length ms = length xs /\
    forall i x, nth_error xs i = Some x -> exists m, nth_error ms i = Some m /\ u2_n p x = Ret m.
Proof.
  induction xs as [|x xs IH]; intros H mu.
  - exists []. rewrite app_nil_r. split; [reflexivity|]. split; [reflexivity|]. intros [|i] y Hy; discriminate.
  - destruct (H x (or_introl eq_refl)) as (m & Em). cbn [nom_vector2_loop]. rewrite Em. cbn [bind].
    destruct (IH (fun y Hy => H y (or_intror Hy)) (mu ++ [m])) as (ms & E & L & F).
    exists (m :: ms). rewrite E, <- app_assoc. split; [reflexivity|]. split; [cbn; congruence|].
    intros [|i] y Hy; cbn in *; [|now apply F]. injection Hy as <-. eauto.
Qed.

Lemma C73_matrices_proof : forall (N : Num) (eig : list (list N) -> option (list N)),
  nltb (n0 : N) n0 = false -> forall w, reachable2 eig w -> forall us : list nat,
  let xs := map (w2_var w) us in let n := length us in
  exists V C, cov_matrix2 xs = Ret V /\ corr_matrix2 xs = Ret C /\
    length V = (n * n)%nat /\ length C = (n * n)%nat /\
    (forall i j u v, nth_error us i = Some u -> nth_error us j = Some v -> exists a b,
       nth_error V (n * i + j) = Some a /\ u2_cov (w2_var w u) (w2_var w v) = Ret a /\
       nth_error C (n * i + j) = Some b /\ u2_corr (w2_var w u) (w2_var w v) = Ret b) /\
    (forall out, (n * n <= length out)%nat ->
       cov_matrix2_it xs out = Ret (V ++ skipn (n * n) out) /\
       corr_matrix2_it xs out = Ret (C ++ skipn (n * n) out)) /\
    forall p, exists ms, nom_vector2 p xs = Ret ms /\ length ms = n /\
      forall i u, nth_error us i = Some u -> exists m, nth_error ms i = Some m /\ u2_n p (w2_var w u) = Ret m.
Proof.
  intros N eig H0 w Hr us xs n. assert (Q := C25_queries_return_proof N eig H0 w Hr).
  assert (IN : forall x, In x xs -> exists u, x = w2_var w u).
  { intros x Hx. apply in_map_iff in Hx as (u & <- & _). eauto. }
  assert (S : forall u, exists s, u2_s (w2_var w u) = Ret s).
  { intro u. destruct (Q u u u) as (M & _). destruct (M 2%Z ltac:(lia)) as (m & Em). unfold u2_s. rewrite Em. cbn [bind]. eauto. }
  destruct (layout u2_cov xs) as (V & EV & LV & FV & IV).
  { intros x y Hx Hy. destruct (IN x Hx) as (u & ->), (IN y Hy) as (v & ->). apply (Q u v u). }
  destruct (layout u2_corr xs) as (C & EC & LC & FC & IC).
  { intros x y Hx Hy. destruct (IN x Hx) as (u & ->), (IN y Hy) as (v & ->). destruct (Q u v u) as (_ & (c & Ec) & _).
    destruct (S u) as (su & Eu), (S v) as (sv & Ev). unfold u2_corr. rewrite Ec, Eu. cbn [bind]. rewrite Ev. cbn [bind]. eauto. }
  assert (LX : length xs = n) by apply map_length. rewrite LX in *.
  exists V, C. repeat (split; [assumption|]). split; [|split].
  - intros i j u v Hi Hj. assert (Hi' := map_nth_error (w2_var w) i us Hi). assert (Hj' := map_nth_error (w2_var w) j us Hj).
    destruct (FV i j _ _ Hi' Hj') as (a & Ha & Ea). destruct (FC i j _ _ Hi' Hj') as (b & Hb & Eb). exists a, b. auto.
  - intros out Ho. split; [now apply IV|now apply IC].
  - intro p. destruct (nom_vector2_ok p xs) with (mu := @nil N) as (ms & E & L & F).
    { intros x Hx. destruct (IN x Hx) as (u & ->). destruct (Q u u u) as (M & _). destruct (M 1%Z ltac:(lia)) as (m & Em).
      unfold u2_n. rewrite Em. cbn [bind]. eauto. }
    exists ms. split; [exact E|]. split; [congruence|]. intros i u Hi. apply F. now apply map_nth_error.
Qed.

(** ** Symmetric and positive semidefinite *)
Lemma nth_nth_error {A : Type} (l : list A) k d c : nth_error l k = Some c -> nth k l d = c.
Proof. intro H. now apply nth_error_nth. Qed.

Lemma us_nth (us : list nat) i : (i < length us)%nat -> nth_error us i = Some (nth i us 0%nat).
Proof. intro H. now apply nth_error_nth'. Qed.

Lemma cov_entry eig (w : world2 RN) us V : reachable2 eig w -> cov_matrix2 (map (w2_var w) us) = Ret V ->
  let n := length us in forall i j, (i < n)%nat -> (j < n)%nat ->
  u2_cov (w2_var w (nth i us 0%nat)) (w2_var w (nth j us 0%nat)) = Ret (nth (n * i + j) V 0).
Proof.
  intros Hr E n i j Hi Hj. destruct (C73_matrices_proof RN eig Rltb_00 w Hr us) as (V' & C & EV & _ & _ & _ & F & _).
  rewrite EV in E. injection E as ->. destruct (F i j _ _ (us_nth us i Hi) (us_nth us j Hj)) as (a & b & Ha & Ea & _).
  rewrite Ea. f_equal. symmetry. now apply nth_nth_error.
Qed.

Lemma Ex_rsum2 (P : expect) {I : Type} (l : list I) (g : I -> Om P -> R) :
  (forall i, In i l -> int P (g i)) ->
  int P (fun o => rsum l (fun i => g i o)) /\ Ex P (fun o => rsum l (fun i => g i o)) = rsum l (fun i => Ex P (g i)).
Proof.
  induction l as [|i l IH]; intro H; cbn [rsum]; [apply (Ex_const P 0)|].
  destruct (IH (fun k Hk => H k (or_intror Hk))) as [I1 E1].
  destruct (Ex_plus P _ _ (H i (or_introl eq_refl)) I1) as [I2 E2]. split; [exact I2|]. now rewrite E2, E1.
Qed.

Lemma rsum_sq {I : Type} (l : list I) (g : I -> R) : rsum l (fun i => rsum l (fun j => g i * g j)) = rsum l g * rsum l g.
Proof.
  transitivity (rsum l (fun i => rsum l g * g i)).
  - apply rsum_ext. intros i _. rewrite (Rmult_comm (rsum l g)), <- rsum_scal. reflexivity.
  - apply rsum_scal.
Qed.

Lemma C73_positive_proof : forall eig (cs : list (call2 RN)) (w : world2 RN),
  legal2 cs -> run2 eig w2_init cs = Ret w -> forall (us : list nat) V,
  cov_matrix2 (map (w2_var w) us) = Ret V ->
  let n := length us in
  (forall i j, (i < n)%nat -> (j < n)%nat -> nth (n * i + j) V 0 = nth (n * j + i) V 0) /\
  ((forall i s m, given eig w2_init cs i = Some (s, m) -> s <> 0 -> realizable m) ->
   forall a : nat -> R,
     0 <= rsum (seq 0 n) (fun i => rsum (seq 0 n) (fun j => a i * a j * nth (n * i + j) V 0))).
Proof.
  intros eig cs w L Er us V EV n. assert (Hr : reachable2 eig w) by (exists cs; auto).
  assert (CE := cov_entry eig w us V Hr EV). fold n in CE. split.
  - intros i j Hi Hj. destruct (C29_covariance_symmetric_proof eig w Hr (nth i us 0%nat) (nth j us 0%nat)) as ((c & E1 & E2) & _).
    rewrite (CE i j Hi Hj) in E1. rewrite (CE j i Hj Hi) in E2. congruence.
  - intros HR a. destruct (actual_model eig cs w L Er HR) as (P & ids & X & M & ND & IND & H1 & _ & HI).
    set (Z := fun (i : nat) o => value (jet_of (w2_var w (nth i us 0%nat))) ids X o - Ex P (value (jet_of (w2_var w (nth i us 0%nat))) ids X)).
    assert (K : forall i j, (i < n)%nat -> (j < n)%nat -> int P (fun o => Z i o * Z j o) /\ nth (n * i + j) V 0 = Ex P (fun o => Z i o * Z j o)).
    { intros i j Hi Hj.
      destruct (run_cov eig cs w L Er P ids X M ND IND H1 (nth i us 0%nat) (nth j us 0%nat) (HI _) (HI _)) as (IC & HC).
      split; [exact IC|]. rewrite (CE i j Hi Hj) in HC. injection HC as HC. exact HC. }
    assert (G : forall i j, In i (seq 0 n) -> In j (seq 0 n) -> int P (fun o => (a i * Z i o) * (a j * Z j o)) /\
              Ex P (fun o => (a i * Z i o) * (a j * Z j o)) = a i * a j * nth (n * i + j) V 0).
    { intros i j Hi Hj. apply in_seq in Hi. apply in_seq in Hj. destruct (K i j ltac:(lia) ltac:(lia)) as [IK ->].
      destruct (Ex_scal P (a i * a j) _ IK) as [I2 E2]. rewrite <- E2.
      assert (Q : forall o, a i * a j * (Z i o * Z j o) = a i * Z i o * (a j * Z j o)) by (intro o; ring).
      destruct (Ex_ext P _ _ Q I2) as [I3 E3]. split; [exact I3|now rewrite E3]. }
    assert (T : int P (fun o => rsum (seq 0 n) (fun i => rsum (seq 0 n) (fun j => a i * Z i o * (a j * Z j o)))) /\
      Ex P (fun o => rsum (seq 0 n) (fun i => rsum (seq 0 n) (fun j => a i * Z i o * (a j * Z j o))))
      = rsum (seq 0 n) (fun i => rsum (seq 0 n) (fun j => a i * a j * nth (n * i + j) V 0))).
    { destruct (Ex_rsum2 P (seq 0 n) (fun i o => rsum (seq 0 n) (fun j => a i * Z i o * (a j * Z j o)))) as [I1 E1].
      - intros i Hi. apply (Ex_rsum2 P (seq 0 n) (fun j o => a i * Z i o * (a j * Z j o))). intros j Hj. now apply G.
      - split; [exact I1|]. rewrite E1. apply rsum_ext. intros i Hi.
        destruct (Ex_rsum2 P (seq 0 n) (fun j o => a i * Z i o * (a j * Z j o))) as [_ E2]; [intros j Hj; now apply G|].
        rewrite E2. apply rsum_ext. intros j Hj. now apply G. }
    destruct T as [IT <-]. apply (Ex_pos P); [exact IT|]. intro o.
    rewrite (rsum_sq (seq 0 n) (fun i => a i * Z i o)). apply Rle_0_sqr.
Qed.

Lemma C73_corr2cov_proof : forall eig (w : world2 RN), reachable2 eig w -> forall us : list nat,
  (forall u, In u us -> exists s, u2_s (w2_var w u) = Ret s /\ s <> 0) ->
  let xs := map (w2_var w) us in
  exists C V S, corr_matrix2 xs = Ret C /\ cov_matrix2 xs = Ret V /\ length S = length us /\
    (forall i u, nth_error us i = Some u -> exists s, nth_error S i = Some s /\ u2_s (w2_var w u) = Ret s) /\
    corr2cov S C = Ret V.
Proof.
  intros eig w Hr us HS xs. destruct (C73_matrices_proof RN eig Rltb_00 w Hr us) as (V & C & EV & EC & LV & LC & F & _).
  fold xs in EV, EC. set (S := map (fun u => got 0 (u2_s (w2_var w u))) us).
  assert (GS : forall i u, nth_error us i = Some u -> nth_error S i = Some (got 0 (u2_s (w2_var w u))) /\
            u2_s (w2_var w u) = Ret (got 0 (u2_s (w2_var w u))) /\ got 0 (u2_s (w2_var w u)) <> 0).
  { intros i u Hi. split; [unfold S; apply (map_nth_error (fun u => got 0 (u2_s (w2_var w u)))); exact Hi|].
    destruct (HS u (nth_error_In _ _ Hi)) as (s & Es & Ns). rewrite Es. cbn. split; [reflexivity|exact Ns]. }
  assert (LS : @length (T RN) S = length us) by apply map_length.
  exists C, V, S. split; [exact EC|]. split; [exact EV|]. split; [exact LS|].
  split; [intros i u Hi; destruct (GS i u Hi) as (A & B & _); eauto|].
  assert (K := proj2 (C18_corr2cov_proof RN S C)). cbv zeta in K. rewrite LS in K. destruct (K LC) as (V' & E & LV' & F').
  rewrite E. f_equal. apply nth_ext with (d := 0) (d' := 0); [congruence|]. intros k Hk. rewrite LV' in Hk.
  set (n := length us) in *. assert (Hn : n <> 0%nat) by (intro Q; rewrite Q in Hk; cbn in Hk; lia).
  assert (Dk := Nat.div_mod k n Hn). assert (Mk := Nat.mod_upper_bound k n Hn). rewrite Dk.
  set (i := (k / n)%nat) in *. set (j := (k mod n)%nat) in *. assert (Hi : (i < n)%nat) by nia.
  assert (Ui := us_nth us i Hi). assert (Uj := us_nth us j Mk).
  destruct (F i j _ _ Ui Uj) as (a & b & Ha & Ea & Hb & Eb). destruct (GS i _ Ui) as (Si & Es & Ns). destruct (GS j _ Uj) as (Sj & Et & Nt).
  etransitivity; [exact (nth_error_nth _ _ 0 (F' i j _ _ _ Si Sj Hb))|]. symmetry. etransitivity; [exact (nth_error_nth _ _ 0 Ha)|]. symmetry.
  unfold u2_corr in Eb. rewrite Ea, Es in Eb. cbn [bind] in Eb. rewrite Et in Eb. cbn [bind] in Eb. injection Eb as <-.
  
  cbn. field. split; assumption.
Qed.
