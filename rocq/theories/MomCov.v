(** * MomCov: the covariance of two UReal2 is that of the two polynomials *)

From Coq Require Import List ZArith Bool Reals Lra Lia Permutation Sorted.
From Verif Require Import Base Num Map UReal HessGrad Moments CheckMoments UReal2 HessProofs U2Facts World2 U2World.
From Verif Require Import Sums SpecU2 U2Values U2Ret SpecProb MomSums MomSpec MomPoly MomCode MomLoops MomMatch MomProofs.
Import ListNotations.
Local Open Scope R_scope.

(** ** Merges *)
Section Merge.
  Context {K A B : Type} {KO : KeyOrd K}.
  Variable f : K -> A -> B -> R.
  Definition msumk (b : list (K * B)) (ka : K * A) : R :=
    match mfind (fst ka) b with Some y => f (fst ka) (snd ka) y | None => 0 end.
  Lemma find_head k (d : B) m : mfind k ((k, d) :: m) = Some d.
  Proof. cbn [mfind]. now rewrite kcmp_refl. Qed.
  Lemma find_skip i k (d : B) m : msorted ((k, d) :: m) -> klt k i -> mfind i ((k, d) :: m) = mfind i m.
  Proof.
    intros S L. cbn [mfind]. destruct (kcmp i k) eqn:E; [| |reflexivity].
    - apply kcmp_eq in E. subst. now apply klt_irrefl in L.
    - exfalso. apply (klt_irrefl i). apply (klt_trans i k i); [exact E|exact L].
  Qed.
  Lemma msumk_eq k (x : A) y a b : msorted ((k, x) :: a) -> msorted ((k, y) :: b) ->
    rsum ((k, x) :: a) (msumk ((k, y) :: b)) = f k x y + rsum a (msumk b).
  Proof.
    intros Sa Sb. cbn [rsum]. f_equal; [unfold msumk; cbn [fst snd]; now rewrite find_head|].
    apply rsum_ext. intros [k' x'] H. unfold msumk. cbn [fst snd]. rewrite find_skip; [reflexivity|exact Sb|].
    apply msorted_inv in Sa as [_ La]. apply La. now apply (in_map fst) in H.
  Qed.
  Lemma msumk_lt k k' (x : A) y a b : msorted ((k', y) :: b) -> klt k k' ->
    rsum ((k, x) :: a) (msumk ((k', y) :: b)) = rsum a (msumk ((k', y) :: b)).
  Proof.
    intros Sb Hl. cbn [rsum]. unfold msumk at 1. cbn [fst snd]. rewrite mfind_None_lt; [ring|exact Sb|].
    apply msorted_inv in Sb as [_ Lb]. intros z [<-|Hz]; [exact Hl|]. apply (klt_trans k k' z); auto.
  Qed.
  Lemma msumk_gt k k' (x : A) y a b : msorted ((k, x) :: a) -> msorted ((k', y) :: b) -> klt k' k ->
    rsum ((k, x) :: a) (msumk ((k', y) :: b)) = rsum ((k, x) :: a) (msumk b).
  Proof.
    intros Sa Sb Hl. apply rsum_ext. intros [i z] H. unfold msumk. cbn [fst snd]. rewrite find_skip; [reflexivity|exact Sb|].
    destruct H as [[= <- <-]|H]; [exact Hl|]. apply msorted_inv in Sa as [_ La]. apply (klt_trans k' k i); [exact Hl|].
    apply La. now apply (in_map fst) in H.
  Qed.
  Lemma msumk_nil (a : list (K * A)) : rsum a (msumk []) = 0.
  Proof. apply rsum_zero. reflexivity. Qed.
End Merge.

Lemma c2_A0_acc p (da db : diag RN) m : c2_A0 p da db m = m + c2_A0 p da db 0.
Proof. unfold c2_A0. rr. Qed.

Lemma c2_A_cons (ida : Z) (da : diag RN) ita idb db itb m : c2_A ((ida, da) :: ita) ((idb, db) :: itb) m =
  (m' <- (if (ida =? idb)%Z then match dmom da with Some p => Ret (c2_A0 p da db m) | None => UB end else Ret m);;
   if (ida <=? idb)%Z then if (idb <=? ida)%Z then c2_A ita itb m' else c2_A ita ((idb, db) :: itb) m'
   else c2_A ((ida, da) :: ita) itb m').
Proof. reflexivity. Qed.

Definition fA (env : Z -> moms RN) (i : Z) (da db : diag RN) : R := c2_A0 (env i) da db 0.
Lemma c2_A_sum env (da : list (Z * diag RN)) : (forall i x, In (i, x) da -> dmom x = Some (env i)) -> msorted da ->
  forall db m, msorted db -> c2_A da db m = Ret (m + rsum da (msumk (fA env) db)).
Proof.
  induction da as [|[i x] da IH]; intros MO Sa.
  - intros [|[j y] db] m _; cbn [c2_A rsum]; now rewrite Rplus_0_r.
  - assert (IH' := IH (fun j y Hy => MO j y (or_intror Hy)) (proj1 (msorted_inv _ _ _ Sa))).
    induction db as [|[j y] db IHb]; intros m Sb.
    + rewrite msumk_nil, Rplus_0_r. reflexivity.
    + assert (IHb' := fun m => IHb m (proj1 (msorted_inv _ _ _ Sb))). rewrite c2_A_cons.
      destruct (Z.eqb_spec i j) as [E|E].
      * subst j. rewrite (MO i x (or_introl eq_refl)). cbn [bind]. rewrite Z.leb_refl, IH' by exact (proj1 (msorted_inv _ _ _ Sb)).
        rewrite msumk_eq by assumption. f_equal. unfold fA. rewrite c2_A0_acc. now rewrite Rplus_assoc.
      * cbn [bind]. destruct (Z.leb_spec i j) as [Hl|Hl].
        -- destruct (Z.leb_spec j i); [lia|]. rewrite IH' by exact Sb. rewrite msumk_lt; [reflexivity|exact Sb|apply klt_Z; lia].
        -- rewrite IHb'. rewrite (msumk_gt _ i j) by (try assumption; apply klt_Z; lia). reflexivity.
Qed.

Definition fB (_ : Z * Z) (a b : T RN) : R := 4 * (a : R) * (b : R).
Lemma c2_B_sum Da Db (ta : list ((Z * Z) * T RN)) : (forall i j, In (i, j) (map fst ta) -> (i < j)%Z) -> msorted ta ->
  forall tb m, (forall i j, In (i, j) (map fst tb) -> (i < j)%Z) -> msorted tb ->
  c2_B (map (tvisit Da) ta) (map (tvisit Db) tb) m = Ret (m + rsum ta (msumk fB tb)).
Proof.
  induction ta as [|[[i i'] x] ta IH]; intros Ha Sa.
  - intros tb m _ _. destruct tb; cbn [map c2_B rsum]; now rewrite Rplus_0_r.
  - assert (IH' := IH (fun j y Hy => Ha j y (or_intror Hy)) (proj1 (msorted_inv _ _ _ Sa))).
    induction tb as [|[[j j'] y] tb IHb]; intros m Hb Sb.
    + rewrite msumk_nil, Rplus_0_r. reflexivity.
    + assert (IHb' := fun m => IHb m (fun j y Hy => Hb j y (or_intror Hy)) (proj1 (msorted_inv _ _ _ Sb))).
      assert (IH'' := fun m => IH' tb m (fun j y Hy => Hb j y (or_intror Hy)) (proj1 (msorted_inv _ _ _ Sb))).
      cbn [map] in IHb' |- *. rewrite c2_B_cons. cbn [vid vid1 vid2 tvisit fst snd vval].
      assert (Hi := Ha i i' (or_introl eq_refl)). assert (Hj := Hb j j' (or_introl eq_refl)).
      apply Z.ltb_lt in Hi, Hj. rewrite Hi, Hj. cbn [assert_ bind]. cbv zeta.
      change (vid (tvisit Da ((i, i'), x))) with (i, i') in *. change (vid (tvisit Db ((j, j'), y))) with (j, j') in *.
      unfold peqb, pleb. rewrite (kcmp_opp (i, i') (j, j')). destruct (kcmp (i, i') (j, j')) eqn:E; cbn [CompOpp].
      * apply kcmp_eq in E. injection E as <- <-. rewrite IH''. rewrite msumk_eq by assumption. f_equal. unfold fB.
        rr.
      * change (c2_B (map (tvisit Da) ta) (map (tvisit Db) (((j, j'), y) :: tb)) m = Ret (m + rsum (((i, i'), x) :: ta) (msumk fB (((j, j'), y) :: tb)))).
        rewrite IH' by assumption. rewrite msumk_lt; [reflexivity|exact Sb|exact E].
      * etransitivity; [exact (IHb' m)|]. f_equal. f_equal. rewrite (msumk_gt _ (i, i') (j, j')); try assumption; [reflexivity|].
        unfold klt. rewrite kcmp_opp, E. reflexivity.
Qed.

Lemma c2_C_sum (a b : hessgrad RN) m : c2_C a b m =
  m + rsum (diagmap a) (fun p => rsum (diagmap b) (fun q => if (fst p =? fst q)%Z then 0 else dhh (snd p) * dhh (snd q))).
Proof.
  unfold c2_C.
  assert (E : forall p (l : list (Z * diag RN)) (m : RN), for_each (fun itb (m : RN) => if negb (fst p =? fst itb)%Z then nadd m (nmul (dhh (snd p)) (dhh (snd itb))) else m) l m
    = m + rsum l (fun q => if (fst p =? fst q)%Z then 0 else dhh (snd p) * dhh (snd q))).
  { intros p. induction l as [|q l IH]; intro m0; cbn [for_each fold_left rsum]; [symmetry; apply Rplus_0_r|].
    etransitivity; [apply IH|]. destruct (fst p =? fst q)%Z; cbn [negb]; rr. }
  revert m. induction (diagmap a) as [|p l IH]; intro m; cbn [for_each fold_left rsum]; [symmetry; apply Rplus_0_r|].
  etransitivity; [apply IH|]. etransitivity; [exact (f_equal (fun z => z + _) (E p (diagmap b) m))|]. cbv beta. rr.
Qed.

(** ** Sorted lists containing two others *)
Lemma sorted_ins a (l : list Z) : StronglySorted Z.lt l -> exists l', StronglySorted Z.lt l' /\ forall i, In i l' <-> i = a \/ In i l.
Proof.
  induction 1 as [|b l S IH F].
  - exists [a]. split; [repeat constructor|]. intro i; cbn; intuition.
  - rewrite Forall_forall in F. destruct (Z.compare_spec a b) as [E|E|E].
    + subst. exists (b :: l). split; [constructor; [exact S|now apply Forall_forall]|]. intro i; cbn; intuition.
    + exists (a :: b :: l). split.
      * constructor; [constructor; [exact S|now apply Forall_forall]|]. apply Forall_forall. intros y [<-|Hy]; [exact E|].
        apply F in Hy. lia.
      * intro i; cbn; intuition.
    + destruct IH as (l' & S' & H'). exists (b :: l'). split.
      * constructor; [exact S'|]. apply Forall_forall. intros y Hy. apply H' in Hy as [->|Hy]; [exact E|now apply F].
      * intro i; cbn. rewrite H'. intuition.
Qed.
Lemma sorted_union (l1 l2 : list Z) : StronglySorted Z.lt l2 ->
  exists l, StronglySorted Z.lt l /\ forall i, In i l <-> In i l1 \/ In i l2.
Proof.
  intro S. induction l1 as [|a l1 (l & Sl & Hl)].
  - exists l2. split; [exact S|]. intro; cbn; intuition.
  - destruct (sorted_ins a l Sl) as (l' & S' & H'). exists l'. split; [exact S'|]. intro i. rewrite H', Hl. cbn. intuition.
Qed.

(** ** The expectation of the product *)
Section Two.
  Variables (ga gb : Z -> R) (ha hb : Z -> Z -> R) (mo : Z -> moms RN).
  Hypothesis sa : forall i j, ha i j = ha j i.
  Hypothesis sb : forall i j, hb i j = hb j i.
  Let V (i : Z) (k : nat) : R := stdmom (mo i) k.
  Let q2 : list qform := [(ga, ha); (gb, hb)].
  Lemma p20 : fstar V q2 [] [] = 0.
  Proof. unfold fstar, q2. cbn [app qS rsum]. lra. Qed.
  Lemma p21 a : fstar V q2 [] [a] = ga a * gb a + ha a a * gb a * v3 (mo a) + ga a * hb a a * v3 (mo a) + ha a a * hb a a * v4 (mo a).
  Proof.
    unfold fstar, q2, Kf. cbn [app qS rsum rprod fst snd count_occ].
    repeat match goal with |- context [Z.eq_dec ?u ?v] => destruct (Z.eq_dec u v); try congruence end.
    cbv [occ Nat.eqb V stdmom]. ring.
  Qed.
  Lemma p22 a b : a <> b -> fstar V q2 [] [a; b] = 4 * ha a b * hb a b + (ha a a * hb b b + ha b b * hb a a).
  Proof.
    intro N. unfold fstar, q2, Kf. cbn [app qS rsum rprod fst snd count_occ].
    repeat match goal with |- context [Z.eq_dec ?u ?v] => destruct (Z.eq_dec u v); try congruence end.
    cbv [occ Nat.eqb V stdmom]. rewrite (sa b a), (sb b a). ring.
  Qed.
  Lemma c2_match L : StronglySorted Z.lt L ->
    rsum L (fun a => ga a * gb a + ha a a * gb a * v3 (mo a) + ga a * hb a a * v3 (mo a) + ha a a * hb a a * v4 (mo a))
    + t2 L (fun a b => 4 * ha a b * hb a b) + s2 L (fun a b => if (a =? b)%Z then 0 else ha a a * hb b b)
    = qS q2 L (mu V L).
  Proof.
    intro S. rewrite (qS_msum V (fun _ => eq_refl) (fun _ => eq_refl) q2 L (sorted_nodup L S)).
    change (length q2) with 2%nat. rewrite msum_2, p20, Rplus_0_l.
    rewrite (rsum_ext L (fun a => fstar V q2 [] [a]) _ (fun a _ => p21 a)).
    rewrite (t2_ext_lt L S (fun a b => fstar V q2 [] [a; b]) (fun a b => 4 * ha a b * hb a b + (ha a a * hb b b + ha b b * hb a a))).
    2:{ intros a b _ _ H. apply p22. lia. }
    rewrite (s2_t2 L (fun a b => if (a =? b)%Z then 0 else ha a a * hb b b)) by (intros; now rewrite Z.eqb_refl).
    rewrite (t2_plus L (fun a b => 4 * ha a b * hb a b) (fun a b => ha a a * hb b b + ha b b * hb a a)).
    rewrite (t2_ext_lt L S (fun a b => (if (a =? b)%Z then 0 else ha a a * hb b b) + (if (b =? a)%Z then 0 else ha b b * hb a a))
       (fun a b => ha a a * hb b b + ha b b * hb a a)).
    - ring.
    - intros a b _ _ H. destruct (Z.eqb_spec a b); [lia|]. destruct (Z.eqb_spec b a); [lia|]. reflexivity.
  Qed.
End Two.

Section Cov.
  Variables (x z : ureal2 RN) (env : Z -> moms RN).
  Hypothesis OKx : hg_ok (u2hg x).
  Hypothesis OKz : hg_ok (u2hg z).
  Hypothesis MOx : forall i d, In (i, d) (diagmap (u2hg x)) -> dmom d = Some (env i).
  Hypothesis MOz : forall i d, In (i, d) (diagmap (u2hg z)) -> dmom d = Some (env i).
  Let jx := jet_of x.
  Let jz := jet_of z.
  Let q2 : list qform := [(j_g jx, j_h jx); (j_g jz, j_h jz)].

  Lemma c2_ok : exists L, StronglySorted Z.lt L /\ incl (map fst (diagmap (u2hg x))) L /\ incl (map fst (diagmap (u2hg z))) L /\
    (forall i, In i L -> j_dep jx i \/ j_dep jz i) /\
    compute_c2 (u2hg x) (u2hg z) = Ret (qS q2 L (mu (Vs env) L)).
  Proof.
    destruct (sorted_union (map fst (diagmap (u2hg x))) (map fst (diagmap (u2hg z))) (st_sorted z OKz)) as (L & S & H).
    exists L. split; [exact S|]. split; [intros i Hi; apply H; now left|]. split; [intros i Hi; apply H; now right|].
    split; [intros i Hi; now apply H|].
    unfold compute_c2. rewrite (c2_A_sum env _ MOx (proj1 OKx) _ _ (proj1 OKz)). cbn [bind].
    rewrite (tri_visits_skip _ OKx), (tri_visits_skip _ OKz). cbn [bind].
    rewrite c2_B_sum;
      [|intros i j Hk; apply (st_keys x OKx i j Hk)|exact (proj1 (proj2 OKx))|intros i j Hk; apply (st_keys z OKz i j Hk)|exact (proj1 (proj2 OKz))].
    cbn [bind]. f_equal. etransitivity; [apply c2_C_sum|].
    etransitivity; [|apply (c2_match (j_g jx) (j_g jz) (j_h jx) (j_h jz) env (jh_sym x) (jh_sym z) L S)].
    assert (Gx : forall i d, In (i, d) (diagmap (u2hg x)) -> dgrad d = j_g jx i /\ dhh d = j_h jx i i).
    { intros i d Hd. unfold jx. rewrite jh_diag. cbn [jet_of j_g]. now rewrite (In_mfind _ _ _ (proj1 OKx) Hd). }
    assert (Gz : forall i d, In (i, d) (diagmap (u2hg z)) -> dgrad d = j_g jz i /\ dhh d = j_h jz i i).
    { intros i d Hd. unfold jz. rewrite jh_diag. cbn [jet_of j_g]. now rewrite (In_mfind _ _ _ (proj1 OKz) Hd). }
    destruct (st_sup x OKx) as [supGx supHx]. destruct (st_sup z OKz) as [supGz supHz]. cbn [fst snd] in *.
    assert (Nx := sorted_nodup _ (st_sorted x OKx)). assert (Nz := sorted_nodup _ (st_sorted z OKz)). assert (NL := sorted_nodup _ S).
    f_equal; [etransitivity; [exact (f_equal (fun v => v + _) (Rplus_0_l _))|]; f_equal|].
    - transitivity (rsum (map fst (diagmap (u2hg x))) (fun a => j_g jx a * j_g jz a + j_h jx a a * j_g jz a * v3 (env a)
         + j_g jx a * j_h jz a a * v3 (env a) + j_h jx a a * j_h jz a a * v4 (env a))).
      + rewrite rsum_map. apply rsum_ext. intros [i d] Hd. unfold msumk. cbn [fst snd].
        destruct (Gx i d Hd) as [<- <-]. unfold fA, c2_A0.
        destruct (mfind i (diagmap (u2hg z))) as [d'|] eqn:E.
        * apply mfind_In in E. destruct (Gz i d' E) as [<- <-]. rr.
        * apply (mfind_None_iff i _ (proj1 OKz)) in E. unfold jz. rewrite supGz, supHz by auto. ring.
      + apply rsum_support; [exact Z.eq_dec|exact Nx|exact NL| |].
        * intros i Hi Hn. exfalso. apply Hn, H. now left.
        * intros i _ Hn. unfold jx. rewrite supGx, supHx by auto. ring.
    - transitivity (rsum (map fst (trimap (u2hg x))) (fun p => 4 * j_h jx (fst p) (snd p) * j_h jz (fst p) (snd p))).
      + rewrite rsum_map. apply rsum_ext. intros [[i j] v] Hv. unfold msumk, fB. cbn [fst snd].
        destruct (st_keys x OKx i j (in_map fst _ _ Hv)) as (_ & _ & Hij). unfold jx, jz. rewrite !jh_lt by exact Hij.
        rewrite (In_mfind _ _ _ (proj1 (proj2 OKx)) Hv). destruct (mfind (i, j) (trimap (u2hg z))); [reflexivity|ring].
      + apply (keys_sum L (j_h jx) (map fst (trimap (u2hg x))) S (st_nd x OKx)) with (e := fun a b => 4 * j_h jx a b * j_h jz a b).
        * intros i j Hk. destruct (st_keys x OKx i j Hk) as (A & B & C). repeat split; auto; apply H; now left.
        * intros i j _ _ Hij Hk. now apply st_all.
        * intros i j _ _ _ Z0. rewrite Z0. ring.
    - transitivity (rsum (map fst (diagmap (u2hg x))) (fun i => rsum (map fst (diagmap (u2hg z))) (fun j => if (i =? j)%Z then 0 else j_h jx i i * j_h jz j j))).
      + rewrite rsum_map. apply rsum_ext. intros [i d] Hd. cbn [fst snd]. rewrite rsum_map. apply rsum_ext. intros [j d'] Hd'. cbn [fst snd].
        destruct (Gx i d Hd) as [_ <-]. destruct (Gz j d' Hd') as [_ <-]. reflexivity.
      + unfold s2. transitivity (rsum L (fun i => rsum (map fst (diagmap (u2hg z))) (fun j => if (i =? j)%Z then 0 else j_h jx i i * j_h jz j j))).
        * apply rsum_support; [exact Z.eq_dec|exact Nx|exact NL| |].
          -- intros i Hi Hn. exfalso. apply Hn, H. now left.
          -- intros i _ Hn. apply rsum_zero. intros j _. unfold jx. rewrite (supHx i i) by auto. destruct (i =? j)%Z; ring.
        * apply rsum_ext. intros i _. apply rsum_support; [exact Z.eq_dec|exact Nz|exact NL| |].
          -- intros j Hj Hn. exfalso. apply Hn, H. now right.
          -- intros j _ Hn. unfold jz. rewrite (supHz j j) by auto. destruct (i =? j)%Z; ring.
  Qed.

  Variables (P : expect) (ids : list Z) (X : Z -> Om P -> R) (V : Z -> nat -> R).
  Hypothesis ND : NoDup ids.
  Hypothesis IND : independent P ids X V.
  Hypothesis VEx : forall i, In i ids -> j_dep jx i -> forall k, (k <= 8)%nat -> V i k = stdmom (env i) k.
  Hypothesis VEz : forall i, In i ids -> j_dep jz i -> forall k, (k <= 8)%nat -> V i k = stdmom (env i) k.
  Hypothesis SUPx : qsup ids (j_g jx, j_h jx).
  Hypothesis SUPz : qsup ids (j_g jz, j_h jz).
  Let y1 := quad ids (j_g jx) (j_h jx) X.
  Let y2 := quad ids (j_g jz) (j_h jz) X.

  Lemma Ex_prod : int P (fun o => y1 o * y2 o) /\ compute_c2 (u2hg x) (u2hg z) = Ret (Ex P (fun o => y1 o * y2 o)).
  Proof.
    destruct c2_ok as (L & S & Ix & Iz & Dep & E0).
    destruct (Ex_qprod V P ids X ND IND q2 []) as [I E]; [intros i []|cbn; lia|].
    assert (Eq : forall o, rprod [] (fun i => X i o) * qprod q2 ids X o = y1 o * y2 o) by
      (intro o; cbn [rprod qprod q2 fst snd]; unfold y1, y2; ring).
    destruct (Ex_eq P _ (fun o => y1 o * y2 o) _ Eq (conj I E)) as [I' E'].
    split; [exact I'|]. rewrite E0, E'. f_equal. symmetry.
    assert (Sx := st_sup x OKx). assert (Sz := st_sup z OKz).
    apply (qS_change q2 V (Vs env)); [exact ND|now apply sorted_nodup| | |apply (indep_V0 P ids X V IND)|reflexivity|].
    - repeat constructor; auto; apply SUPx || apply SUPz.
    - unfold qsup in *. destruct Sx as [A B], Sz as [C D]. cbn [fst snd] in *.
      constructor; [|constructor; [|constructor]]; split; cbn [fst snd]; intros.
      + apply A. auto.
      + apply B. destruct H; auto.
      + apply C. auto.
      + apply D. destruct H; auto.
    - intros i k Hi HL Hk. cbn in Hk. destruct (Dep i HL); [apply VEx|apply VEz]; auto; lia.
  Qed.

  Lemma cov_ok : int P (fun o => (Yv x P ids X o - Ex P (Yv x P ids X)) * (Yv z P ids X o - Ex P (Yv z P ids X))) /\
    u2_cov x z = Ret (Ex P (fun o => (Yv x P ids X o - Ex P (Yv x P ids X)) * (Yv z P ids X o - Ex P (Yv z P ids X)))).
  Proof.
    destruct Ex_prod as [I E].
    destruct (exY x env P ids X V OKx ND IND VEx SUPx) as [Ix Ex1].
    destruct (exY z env P ids X V OKz ND IND VEz SUPz) as [Iz Ez1].
    destruct (ex1 x env P ids X V OKx ND IND VEx SUPx) as [_ Iy1].
    destruct (ex1 z env P ids X V OKz ND IND VEz SUPz) as [_ Iy2].
    assert (M1 := u2_m1 x env P ids X V OKx MOx ND IND VEx SUPx).
    assert (M2 := u2_m1 z env P ids X V OKz MOz ND IND VEz SUPz).
    change (Ex P (Yv x P ids X) = j_mean jx + Ex P y1) in Ex1. change (Ex P (Yv z P ids X) = j_mean jz + Ex P y2) in Ez1.
    change (int P y1) in Iy1. change (int P y2) in Iy2.
    rewrite Ex1, Ez1. rewrite Ex1 in M1. rewrite Ez1 in M2.
    set (a := Ex P y1) in *. set (b := Ex P y2) in *.
    destruct (Ex_scal P (- b) _ Iy1) as [I1 E1]. destruct (Ex_scal P (- a) _ Iy2) as [I2 E2].
    destruct (Ex_const P (a * b)) as [I3 E3].
    destruct (Ex_plus P _ _ I I1) as [J1 F1]. destruct (Ex_plus P _ _ J1 I2) as [J2 F2]. destruct (Ex_plus P _ _ J2 I3) as [J3 F3].
    rewrite F2, F1, E1, E2, E3 in F3.
    assert (Eq : forall o, y1 o * y2 o + - b * y1 o + - a * y2 o + a * b =
        (Yv x P ids X o - (j_mean jx + a)) * (Yv z P ids X o - (j_mean jz + b))) by
      (intro o; change (Yv x P ids X o) with (j_mean jx + y1 o); change (Yv z P ids X o) with (j_mean jz + y2 o); ring).
    destruct (Ex_eq P _ _ _ Eq (conj J3 F3)) as [J F].
    split; [exact J|]. rewrite F. unfold u2_cov. rewrite E. cbn [bind]. rewrite M1, M2. cbn [bind]. f_equal.
    change (jet_of x) with jx. change (jet_of z) with jz. fold a b. rr.
  Qed.
End Cov.
