(** * U2Values: the values computed by UReal2's unary and binary (on the reals) *)

From Coq Require Import List ZArith Bool Sorted Lia Reals Lra.
From Verif Require Import Base Num Map UReal World HessGrad Moments CheckMoments UReal2 HessProofs U2Facts.
From Verif Require Import SpecObs World2 U2World SpecU2.
Import ListNotations.
Local Open Scope R_scope.

Ltac rgn := match goal with |- @eq _ ?a ?b => change (@eq R a b) end;
  change (@n0 RN) with 0 in *; cbn [nadd nmul ndiv nsub nopp nofZ RN T] in *; ring.

Definition gr (x : ureal2 RN) (i : Z) : R := match mfind i (diagmap (u2hg x)) with Some d => dgrad d | None => 0 end.

(** When the iterator of the Hessian visits what it should. *)
Definition covered (f2 : R) (x : ureal2 RN) : Prop :=
  f2 = 0 \/ (length (diagmap (u2hg x)) <= 1)%nat \/
  exists a da b db h, diagmap (u2hg x) = [(a, da); (b, db)] /\ trimap (u2hg x) = [((a, b), h)].

Lemma trimap_small (x : ureal2 RN) : hg_ok (u2hg x) -> (length (diagmap (u2hg x)) <= 1)%nat -> trimap (u2hg x) = [].
Proof.
  intros (_ & _ & HK & _) L. destruct (trimap (u2hg x)) as [|[[i j] h] t] eqn:E; [reflexivity|exfalso].
  destruct (HK i j) as (Lij & Hi & Hj); [now left|].
  destruct (diagmap (u2hg x)) as [|[a d] [|]]; cbn in *; [tauto| |lia].
  destruct Hi as [Hi|[]], Hj as [Hj|[]]. lia.
Qed.

Lemma mget_dgrad (x : ureal2 RN) i : dgrad (mget diag0 i (diagmap (u2hg x))) = gr x i.
Proof. unfold mget, gr. destruct (mfind i (diagmap (u2hg x))); reflexivity. Qed.

Lemma gr_none (x : ureal2 RN) i : hg_ok (u2hg x) -> ~ In i (map fst (diagmap (u2hg x))) -> gr x i = 0.
Proof. intros OK H. unfold gr. now rewrite (proj2 (mfind_None_iff i _ (proj1 OK)) H). Qed.

Lemma half_zero f : ndiv f (nofZ 2) = f / 2 :> R.
Proof. reflexivity. Qed.

Lemma covered_exact f2 x vs : hg_ok (u2hg x) -> covered f2 x ->
  hess_visits (u2hg x) (neqb (ndiv f2 (nofZ 2)) n0) = Ret vs ->
  visits_exact (u2hg x) vs /\
  forall i j, (i < j)%Z -> mfind (i, j) (trimap (u2hg x)) = None -> f2 / 2 * gr x i * gr x j = 0.
Proof.
  intros OK C E. 
  destruct (visits_of_hg (u2hg x) (neqb (ndiv f2 (nofZ 2)) n0) OK) as (vs' & E' & V & X).
  rewrite E in E'. injection E' as <-.
  destruct (Reqb_spec (f2 / 2) 0) as [Z0|NZ].
  { assert (EB : neqb (n := RN) (ndiv f2 (nofZ 2)) n0 = true) by (apply Reqb_true; exact Z0).
    split; [now apply X|]. intros i j _ _. rewrite Z0. ring. }
  assert (EB : neqb (n := RN) (ndiv f2 (nofZ 2)) n0 = false) by (apply Reqb_false; exact NZ).
  rewrite EB in E. rewrite (hess_visits_all _ OK) in E. injection E as <-.
  destruct C as [C|[C|C]]; [exfalso; apply NZ; rewrite C; lra| |].
  - assert (ET := trimap_small x OK C). rewrite ET.
    split.
    + intros i j NE. rewrite ET. cbn [mfind].
      destruct (diagmap (u2hg x)) as [|[a d] [|]]; cbn [length] in C; [reflexivity| |lia].
      cbn [hess_list_all]. cbn [app filter]. unfold vis, vid. cbn [dvisit vid1 vid2 fst].
      destruct (keqb (a, a) (i, j)) eqn:Ek; [apply keqb_eq in Ek; congruence|reflexivity].
    + intros i j L _. 
      destruct (in_dec Z.eq_dec i (map fst (diagmap (u2hg x)))) as [Hi|Hi];
        [|rewrite (gr_none x i OK Hi); ring].
      destruct (in_dec Z.eq_dec j (map fst (diagmap (u2hg x)))) as [Hj|Hj];
        [|rewrite (gr_none x j OK Hj); ring].
      destruct (diagmap (u2hg x)) as [|[a d] [|]]; cbn in *; [tauto| |lia].
      destruct Hi as [Hi|[]], Hj as [Hj|[]]. lia.
  - destruct C as (a & da & b & db & h & ED & ET).
    destruct OK as (SD & ST & HK & HM). assert (Lab : (a < b)%Z) by (apply (HK a b); rewrite ET; now left).
    split.
    + intros i j NE. rewrite ED, ET. cbn [hess_list_all]. unfold row, in_row. cbn [filter fst snd].
      rewrite Z.eqb_refl. destruct (Z.eqb_spec a b); [lia|]. cbn [map app filter fst snd].
      unfold vis, vid. cbn [dvisit vid1 vid2 fst snd].
      destruct (keqb (a, a) (i, j)) eqn:E1; [apply keqb_eq in E1; congruence|].
      destruct (keqb (b, b) (i, j)) eqn:E2; [apply keqb_eq in E2; congruence|].
      cbn [mfind]. assert (EK : kcmp (i, j) (a, b) = Eq <-> keqb (a, b) (i, j) = true).
      { rewrite kcmp_eq, keqb_eq. intuition congruence. }
      destruct (keqb (a, b) (i, j)) eqn:E3.
      * rewrite (proj2 EK eq_refl). apply keqb_eq in E3. injection E3 as <- <-.
        unfold peqb. rewrite kcmp_refl. unfold tvisit. cbn [fst snd]. unfold mget.
        rewrite mfind_head. rewrite (mfind_cons_ne b a da) by (try (rewrite <- ED; exact SD); lia).
        rewrite mfind_head. reflexivity.
      * destruct (kcmp (i, j) (a, b)); [|reflexivity..]. discriminate (proj1 EK eq_refl).
    + intros i j L Hn.
      assert (OK : hg_ok (u2hg x)) by (split; [exact SD|split; [exact ST|split; [exact HK|exact HM]]]).
      destruct (in_dec Z.eq_dec i (map fst (diagmap (u2hg x)))) as [Hi|Hi];
        [|rewrite (gr_none x i OK Hi); ring].
      destruct (in_dec Z.eq_dec j (map fst (diagmap (u2hg x)))) as [Hj|Hj];
        [|rewrite (gr_none x j OK Hj); ring].
      exfalso. rewrite ED in Hi, Hj. cbn in Hi, Hj. rewrite ET in Hn. cbn [mfind] in Hn.
      assert (i = a /\ j = b) as [-> ->] by (destruct Hi as [Hi|[Hi|[]]], Hj as [Hj|[Hj|[]]]; lia).
      rewrite kcmp_refl in Hn. discriminate.
Qed.

(** ** unary *)
Lemma jh_diag x i : j_h (jet_of x) i i = match mfind i (diagmap (u2hg x)) with Some d => dhh d | None => 0 end.
Proof. cbn. now rewrite Z.eqb_refl. Qed.
Lemma jh_sym x i j : j_h (jet_of x) i j = j_h (jet_of x) j i.
Proof.
  cbn. rewrite (Z.eqb_sym j i). destruct (Z.eqb_spec i j) as [->|]; [reflexivity|].
  now rewrite (Z.min_comm j i), (Z.max_comm j i).
Qed.
Lemma jh_lt x i j : (i < j)%Z ->
  j_h (jet_of x) i j = match mfind (i, j) (trimap (u2hg x)) with Some h => h | None => 0 end.
Proof.
  intro L. cbn. destruct (Z.eqb_spec i j); [lia|]. now rewrite Z.min_l, Z.max_r by lia.
Qed.

(** Symmetric functions are equal if they agree on the diagonal and below. *)
Lemma sym_ext (f g : Z -> Z -> R) : (forall i j, f i j = f j i) -> (forall i j, g i j = g j i) ->
  (forall i, f i i = g i i) -> (forall i j, (i < j)%Z -> f i j = g i j) -> forall i j, f i j = g i j.
Proof.
  intros Sf Sg D L i j. destruct (Z.lt_total i j) as [H|[->|H]]; [auto|auto|].
  rewrite Sf, Sg. auto.
Qed.

Lemma dep_iff x i : hg_ok (u2hg x) -> j_dep (jet_of x) i <-> mfind i (diagmap (u2hg x)) <> None.
Proof.
  intro OK. cbn. assert (I := mfind_None_iff i (diagmap (u2hg x)) (proj1 OK)).
  destruct (mfind i (diagmap (u2hg x))) eqn:E.
  - split; [congruence|]. intros _. apply mfind_In in E. exact (in_map fst _ _ E).
  - split; [|congruence]. intro H. destruct (proj1 I eq_refl H).
Qed.

Lemma jet_unary_ok x f f1 f2 : hg_ok (u2hg x) -> exists z, u2_unary x f f1 f2 = Ret z /\ hg_ok (u2hg z) /\
  jet_eq_diag (jet_of z) (jet_unary (jet_of x) f f1 f2) /\
  (covered f2 x -> jet_eq (jet_of z) (jet_unary (jet_of x) f f1 f2)) /\
  (forall i, option_map dmom (mfind i (diagmap (u2hg z))) = option_map dmom (mfind i (diagmap (u2hg x)))).
Proof.
  intro OK. destruct (unary_result x f f1 f2 OK) as (r & E & OKr & HD & HT).
  exists (mkU2 r f). split; [exact E|]. split; [exact OKr|].
  assert (DG : jet_eq_diag (jet_of (mkU2 r f)) (jet_unary (jet_of x) f f1 f2)).
  { split; [reflexivity|]. split; [|split].
    - intro i. rewrite dep_iff by exact OKr. cbn [u2hg]. rewrite HD. cbn [jet_unary j_dep].
      rewrite (dep_iff x i OK). destruct (mfind i (diagmap (u2hg x))); cbn; intuition congruence.
    - intro i. cbn [jet_of jet_unary j_g u2hg]. rewrite HD. destruct (mfind i (diagmap (u2hg x))); cbn; [reflexivity|ring].
    - intro i. cbn [jet_unary j_h j_g]. rewrite !jh_diag. cbn [jet_of j_g u2hg]. rewrite HD.
      destruct (mfind i (diagmap (u2hg x))); cbn; [ring|ring]. }
  split; [exact DG|]. split.
  - intro C. destruct DG as (D1 & D2 & D3 & D4). split; [exact D1|]. split; [exact D2|]. split; [exact D3|].
    apply sym_ext; [apply jh_sym| |exact D4|].
    + intros i j. cbn [jet_unary j_h]. rewrite (jh_sym x i j). ring.
    + intros i j L. destruct (visits_of_hg (u2hg x) (neqb (ndiv f2 (nofZ 2)) n0) OK) as (vs & Ev & _ & _).
      destruct (covered_exact f2 x vs OK C Ev) as [X Z0].
      cbn [jet_unary j_h j_g]. rewrite !jh_lt by exact L. cbn [u2hg].
      rewrite (HT vs Ev X i j) by lia. specialize (Z0 i j L).
      unfold hg_diag_get. rewrite !mget_dgrad. unfold gr in *. cbn [jet_of j_g].
      destruct (mfind (i, j) (trimap (u2hg x))) as [h|]; cbn [option_map].
      * cbn. ring.
      * specialize (Z0 eq_refl). rewrite <- Rmult_assoc. rewrite Z0. ring.
  - intro i. cbn [u2hg]. rewrite HD. destruct (mfind i (diagmap (u2hg x))); reflexivity.
Qed.

(** ** binary *)
Lemma rn0 : @n0 RN = 0. Proof. reflexivity. Qed.

Lemma jet_binary_ok x y f fx fy fxx fyy fxy : hg_ok (u2hg x) -> hg_ok (u2hg y) ->
  kbelow (u2hg x) -> kbelow (u2hg y) ->
  exists z, u2_binary x y f fx fy fxx fyy fxy = Ret z /\ hg_ok (u2hg z) /\
  jet_eq_diag (jet_of z) (jet_binary (jet_of x) (jet_of y) f fx fy fxx fyy fxy) /\
  (covered fxx x -> covered fyy y -> jet_eq (jet_of z) (jet_binary (jet_of x) (jet_of y) f fx fy fxx fyy fxy)).
Proof.
  intros OKx OKy Kx Ky.
  destruct (binary_result x y f fx fy fxx fyy fxy OKx OKy Kx Ky) as (r & E & OKr & r0 & OK0 & HD & HT & HC).
  exists (mkU2 r f). split; [exact E|]. split; [exact OKr|].
  assert (HDr : forall i, mfind i (diagmap r) =
    match mfind i (diagmap (u2hg x)), mfind i (diagmap (u2hg y)) with
    | None, None => None
    | _, _ => Some (mkD (fx * gr x i + fy * gr y i)
         (fx * j_h (jet_of x) i i + fy * j_h (jet_of y) i i + fxx / 2 * (gr x i * gr x i) + fyy / 2 * (gr y i * gr y i)
          + fxy / 2 * (gr x i * gr y i + gr x i * gr y i))
         (match mfind i (diagmap r) with Some d => dmom d | None => None end))
    end).
  { intro i. destruct (neqb (ndiv fxy (nofZ 2)) n0) eqn:Eh.
    - subst r. apply Reqb_true in Eh. rewrite half_zero in Eh. rewrite HD. unfold mcell. rewrite !jh_diag.
      unfold gr. destruct (mfind i (diagmap (u2hg x))) as [a|], (mfind i (diagmap (u2hg y))) as [b|]; [..|reflexivity]; f_equal;
        cbn [cellX cellYn cellYf dmom]; unfold cellX, cellYn, cellYf; cbn [dgrad dhh dmom]; rewrite Eh; rewrite !half_zero;
        f_equal; try reflexivity; rgn.
    - destruct HC as [HD' _]. rewrite HD'. unfold mget. rewrite HD. unfold mcell. rewrite !jh_diag.
      unfold gr. destruct (mfind i (diagmap (u2hg x))) as [a|], (mfind i (diagmap (u2hg y))) as [b|]; [..|reflexivity]; f_equal;
        unfold wC, cellX, cellYn, cellYf; cbn [wd snd dgrad dhh dmom]; rewrite ?half_zero;
        f_equal; try reflexivity; rgn. }
  assert (DG : jet_eq_diag (jet_of (mkU2 r f)) (jet_binary (jet_of x) (jet_of y) f fx fy fxx fyy fxy)).
  { split; [reflexivity|]. split; [|split].
    - intro i. rewrite dep_iff by exact OKr. cbn [u2hg]. rewrite HDr. cbn [jet_binary j_dep].
      rewrite (dep_iff x i OKx), (dep_iff y i OKy).
      destruct (mfind i (diagmap (u2hg x))), (mfind i (diagmap (u2hg y))); cbn; intuition congruence.
    - intro i. cbn [jet_binary j_g]. change (j_g (jet_of x) i) with (gr x i). change (j_g (jet_of y) i) with (gr y i).
      cbn [jet_of j_g u2hg]. rewrite HDr. unfold gr.
      destruct (mfind i (diagmap (u2hg x))), (mfind i (diagmap (u2hg y))); cbn [dgrad]; try reflexivity. ring.
    - intro i. cbn [jet_binary j_h]. change (j_g (jet_of x) i) with (gr x i). change (j_g (jet_of y) i) with (gr y i).
      rewrite (jh_diag (mkU2 r f)). cbn [u2hg]. rewrite HDr.
      destruct (mfind i (diagmap (u2hg x))) eqn:E1, (mfind i (diagmap (u2hg y))) eqn:E2; cbn [dhh]; try reflexivity.
      rewrite !jh_diag. unfold gr. rewrite E1, E2. ring. }
  split; [exact DG|].
  intros Cx Cy. destruct DG as (D1 & D2 & D3 & D4). split; [exact D1|]. split; [exact D2|]. split; [exact D3|].
  apply sym_ext; [apply jh_sym| |exact D4|].
  { intros i j. cbn [jet_binary j_h]. rewrite (jh_sym x i j), (jh_sym y i j). ring. }
  intros i j L.
  destruct (visits_of_hg (u2hg x) (neqb (ndiv fxx (nofZ 2)) n0) OKx) as (xs & Ex & _ & _).
  destruct (visits_of_hg (u2hg y) (neqb (ndiv fyy (nofZ 2)) n0) OKy) as (ys & Ey & _ & _).
  destruct (covered_exact fxx x xs OKx Cx Ex) as [Xx Zx]. destruct (covered_exact fyy y ys OKy Cy Ey) as [Xy Zy].
  specialize (Zx i j L). specialize (Zy i j L).
  cbn [jet_binary j_h]. change (j_g (jet_of x)) with (gr x). change (j_g (jet_of y)) with (gr y).
  rewrite !jh_lt by exact L. cbn [u2hg].
  assert (T0 : mget n0 (i, j) (trimap r0) =
    fx * match mfind (i, j) (trimap (u2hg x)) with Some h => h | None => 0 end
    + fy * match mfind (i, j) (trimap (u2hg y)) with Some h => h | None => 0 end
    + fxx / 2 * (gr x i * gr x j) + fyy / 2 * (gr y i * gr y j)).
  { unfold mget. rewrite (HT xs ys Ex Ey Xx Xy i j) by lia. unfold mtri, tX, tY. rewrite !mget_dgrad, !half_zero.
    rewrite <- !Rmult_assoc.
    destruct (mfind (i, j) (trimap (u2hg x))) as [a|], (mfind (i, j) (trimap (u2hg y))) as [b|];
      try (rewrite (Zx eq_refl)); try (rewrite (Zy eq_refl)); try reflexivity; rgn. }
  destruct (neqb (ndiv fxy (nofZ 2)) n0) eqn:Eh.
  - subst r. apply Reqb_true in Eh. rewrite half_zero in Eh. rewrite Eh. etransitivity; [exact T0|]. rgn.
  - destruct HC as [_ HT']. specialize (HT' i j L). unfold mget at 1 in HT'. etransitivity; [exact HT'|].
    cbv zeta. rewrite T0. change (ndiv fxy (nofZ 2)) with (fxy / 2). unfold gr.
    destruct (mfind i (diagmap (u2hg x))), (mfind j (diagmap (u2hg y))), (mfind j (diagmap (u2hg x))), (mfind i (diagmap (u2hg y)));
      rgn.
Qed.
