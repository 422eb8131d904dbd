(** * PolyHom: polynomial programs commute with conversions of the numeric type *)

From Coq Require Import List ZArith Bool Sorted Lia.
From Verif Require Import Base Num Map UReal World HessGrad Moments CheckMoments UReal2 World2 HessProofs U2Facts U2World.
From Verif Require Import SpecU2Run SpecU2 U2Proofs SpecCast ConvProofs.
Import ListNotations.

Section Hom.
  Context {N M : Num} (c : N -> M) (K : keeps_ring c).
  Hypothesis Kopp : forall a, c (nopp a) = nopp (c a).
  (** the halves of 0 and 1 *)
  Definition halves (l : Z) (z : bool) : Prop :=
    c (ndiv (nofZ l) (nofZ 2)) = ndiv (nofZ l) (nofZ 2) /\
    neqb (n := N) (ndiv (nofZ l) (nofZ 2)) n0 = z /\ neqb (n := M) (ndiv (nofZ l) (nofZ 2)) n0 = z.
  Hypothesis H0 : halves 0 true.
  Hypothesis H1 : halves 1 false.
  Ltac push := repeat rewrite ?(c_add c K), ?(c_mul c K), ?(c_sub c K), ?(c_ofZ c K), ?(c_0 c K).

  Lemma set_d k d m : mset k (cd c d) (map (ckd c) m) = map (ckd c) (mset k d m).
  Proof. induction m as [|[k' v] m IH]; [reflexivity|]. cbn [map mset ckd fst snd]. destruct (kcmp k k'); cbn [map]; [reflexivity|reflexivity|]. rewrite <- IH. reflexivity. Qed.
  Lemma set_t k d m : mset k (c d) (map (ckt c) m) = map (ckt c) (mset k d m).
  Proof. induction m as [|[k' v] m IH]; [reflexivity|]. cbn [map mset ckt fst snd]. destruct (kcmp k k'); cbn [map]; [reflexivity|reflexivity|]. rewrite <- IH. reflexivity. Qed.
  Lemma cd_0 : cd c diag0 = diag0. Proof. unfold cd, diag0. cbn. now rewrite (c_0 c K). Qed.
  Lemma get_d k m : mget diag0 k (map (ckd c) m) = cd c (mget diag0 k m).
  Proof. unfold mget. rewrite find_d. destruct (mfind k m); [reflexivity|symmetry; apply cd_0]. Qed.
  Lemma get_t k m : mget n0 k (map (ckt c) m) = c (mget n0 k m).
  Proof. unfold mget. rewrite find_t. destruct (mfind k m); [reflexivity|symmetry; apply (c_0 c K)]. Qed.
  Lemma hom_diag id f f' h : (forall d, f' (cd c d) = cd c (f d)) -> hg_diag id f' (chg c h) = chg c (hg_diag id f h).
  Proof. intro E. unfold hg_diag, chg, mupd. cbn [diagmap trimap]. now rewrite get_d, E, set_d. Qed.
  Lemma hom_tri i j f f' h : (forall d, f' (c d) = c (f d)) -> hg_tri i j f' (chg c h) = omap (chg c) (hg_tri i j f h).
  Proof.
    intro E. unfold hg_tri, omap. destruct (assert_ (i <? j)%Z); cbn [bind]; try reflexivity.
    unfold chg, mupd. cbn [diagmap trimap]. now rewrite get_t, E, set_t.
  Qed.
  Lemma hom_hhess i j f f' h : (forall d, f' (c d) = c (f d)) -> hg_hhess i j f' (chg c h) = omap (chg c) (hg_hhess i j f h).
  Proof.
    intro E. unfold hg_hhess. destruct (negb (i =? j)%Z); [now apply hom_tri|]. unfold omap. cbn [bind]. f_equal. apply hom_diag.
    intro d. unfold cd. cbn [dgrad dhh dmom]. now rewrite E.
  Qed.
  Lemma hom_ustep df hdd r v : unary_step (c df) (c hdd) (chg c r) (cv c v) = omap (chg c) (unary_step df hdd r v).
  Proof.
    unfold unary_step. cbn [cv vid1 vid2 vd1 vd2 vval cd dgrad dhh dmom].
    rewrite (hom_hhess (vid1 v) (vid2 v) (fun _ => nadd (nmul (nmul hdd (dgrad (vd1 v))) (dgrad (vd2 v))) (nmul df (vval v)))) by (intro; now push).
    unfold omap. destruct (hg_hhess _ _ _ r) as [r1| | |]; cbn [bind]; try reflexivity. f_equal.
    destruct (vid1 v =? vid2 v)%Z; [|reflexivity]. apply hom_diag. intro d. unfold cd. cbn [dgrad dhh dmom]. now push.
  Qed.
  Lemma hom_bin_y df hdd v fr r : bin_y (c df) (c hdd) (cv c v) fr (chg c r) = omap (chg c) (bin_y df hdd v fr r).
  Proof.
    unfold bin_y. cbn [cv vid1 vid2 vd1 vd2 vval cd dgrad dhh dmom].
    assert (E : (if fr then
            r <- hg_hhess (vid1 v) (vid2 v) (fun _ => n0) (chg c r);;
            Ret (if (vid1 v =? vid2 v)%Z
                 then hg_diag (vid1 v) (fun d => mkD (dgrad d) (dhh d) (option_map (moms_convert c) (dmom (vd1 v)))) r
                 else r)
          else Ret (chg c r)) = omap (chg c) (if fr then
            r <- hg_hhess (vid1 v) (vid2 v) (fun _ => n0) r;;
            Ret (if (vid1 v =? vid2 v)%Z
                 then hg_diag (vid1 v) (fun d => mkD (dgrad d) (dhh d) (dmom (vd1 v))) r
                 else r)
          else Ret r)).
    { destruct fr; [|reflexivity]. rewrite (hom_hhess (vid1 v) (vid2 v) (fun _ => n0)) by (intro; symmetry; apply (c_0 c K)).
      unfold omap. destruct (hg_hhess _ _ _ r) as [r1| | |]; cbn [bind]; try reflexivity. f_equal.
      destruct (vid1 v =? vid2 v)%Z; [|reflexivity]. apply hom_diag. intro d. reflexivity. }
    rewrite E. unfold omap. match goal with |- context [bind (if fr then ?a else ?b)] => destruct (if fr then a else b) as [r1| | |] end; cbn [bind]; try reflexivity.
    rewrite (hom_hhess (vid1 v) (vid2 v) (fun h => nadd (nadd h (nmul (nmul hdd (dgrad (vd1 v))) (dgrad (vd2 v)))) (nmul df (vval v)))) by (intro; now push).
    unfold omap. destruct (hg_hhess _ _ _ r1) as [r2| | |]; cbn [bind]; try reflexivity. f_equal.
    destruct (vid1 v =? vid2 v)%Z; [|reflexivity]. apply hom_diag. intro d. unfold cd. cbn [dgrad dhh dmom]. now push.
  Qed.
  Lemma hom_cstep hxy px py r : cross_step (c hxy) (ckd c px) (ckd c py) (chg c r) = omap (chg c) (cross_step hxy px py r).
  Proof.
    unfold cross_step. cbn [ckd fst snd cd dgrad]. destruct (negb _).
    - apply hom_tri. intro d. now push.
    - unfold omap. cbn [bind]. f_equal. apply hom_diag. intro d. unfold cd. cbn [dgrad dhh dmom]. now push.
  Qed.
  Lemma hom_ofold {A B : Type} (f : hessgrad N -> A -> outcome (hessgrad N)) (f' : hessgrad M -> B -> outcome (hessgrad M)) (g : A -> B) l :
    (forall a r, f' (chg c r) (g a) = omap (chg c) (f r a)) -> forall r, ofold f' (map g l) (chg c r) = omap (chg c) (ofold f l r).
  Proof.
    intro E. induction l as [|a l IH]; intro r; [reflexivity|]. cbn [map ofold]. rewrite E. unfold omap. destruct (f r a) as [r1| | |]; cbn [bind]; try reflexivity. apply IH.
  Qed.
  Lemma hom_cross hxy dx dy r : cross (c hxy) (map (ckd c) dx) (map (ckd c) dy) (chg c r) = omap (chg c) (cross hxy dx dy r).
  Proof. unfold cross. apply hom_ofold. intros px r0. apply hom_ofold. intros py r1. apply hom_cstep. Qed.
  Lemma hom_visits h : hg_ok h -> hg_ok (chg c h) -> hess_visits (chg c h) true = omap (map (cv c)) (hess_visits h true).
  Proof.
    intros OK OK'. rewrite (hess_visits_skip _ OK), (hess_visits_skip _ OK'). unfold omap. cbn [bind]. f_equal. unfold hess_list_skip, chg. cbn [diagmap trimap].
    generalize (diagmap h) at 2 4 as d. induction d as [|[i di] d IH]; [reflexivity|]. cbn [map flat_map]. rewrite map_app. cbn [map ckd fst snd]. rewrite <- IH. cbn [app]. f_equal. f_equal.
    unfold row. clear - K. induction (trimap h) as [|[[a b] x] t IH]; [reflexivity|]. cbn [map filter].
    change (in_row i (ckt c (a, b, x))) with (a =? i)%Z. change (in_row i (a, b, x)) with (a =? i)%Z.
    destruct (a =? i)%Z; [|exact IH]. cbn [map]. rewrite IH. f_equal. unfold tvisit, ckt. cbn [fst snd]. rewrite !get_d. reflexivity.
  Qed.
  Lemma hom_merge dfdx dfdy hxx hyy xs : forall ys r,
    bin_merge (c dfdx) (c dfdy) (c hxx) (c hyy) (map (cv c) xs) (map (cv c) ys) (chg c r) = omap (chg c) (bin_merge dfdx dfdy hxx hyy xs ys r).
  Proof.
    induction xs as [|vx xs IHx].
    - induction ys as [|vy ys IHy]; intro r; [reflexivity|]. cbn [map bin_merge]. change (vid (cv c vy)) with (vid vy).
      destruct (pleb pmaxid (vid vy)); [reflexivity|]. rewrite hom_bin_y. unfold omap. destruct (bin_y _ _ _ _ r) as [r1| | |]; cbn [bind]; try reflexivity.
      exact (IHy r1).
    - induction ys as [|vy ys IHy]; intro r.
      + cbn [map bin_merge]. change (vid (cv c vx)) with (vid vx). destruct (pleb (vid vx) pmaxid); [|reflexivity].
        unfold bin_x. rewrite hom_ustep. unfold omap. destruct (unary_step _ _ _ _) as [r1| | |]; cbn [bind]; try reflexivity.
        destruct (pleb pmaxid (vid vx)); [reflexivity|]. exact (IHx [] r1).
      + cbn [map bin_merge]. change (vid (cv c vx)) with (vid vx). change (vid (cv c vy)) with (vid vy). destruct (pleb (vid vx) (vid vy)).
        * unfold bin_x. rewrite hom_ustep. unfold omap. destruct (unary_step _ _ _ _) as [r1| | |]; cbn [bind]; try reflexivity.
          destruct (pleb (vid vy) (vid vx)); [|exact (IHx (vy :: ys) r1)]. rewrite hom_bin_y. unfold omap.
          destruct (bin_y _ _ _ _ _) as [r2| | |]; cbn [bind]; try reflexivity. exact (IHx ys r2).
        * rewrite hom_bin_y. unfold omap. destruct (bin_y _ _ _ _ _) as [r2| | |]; cbn [bind]; try reflexivity. exact (IHy r2).
  Qed.
  Lemma hom_unary x f f1 : hg_ok (u2hg x) -> hg_ok (u2hg (cu c x)) -> u2_unary (cu c x) (c f) (c f1) (nofZ 0) = omap (cu c) (u2_unary x f f1 (nofZ 0)).
  Proof.
    intros OK OK'. destruct H0 as (E & EN & EM). unfold u2_unary. rewrite EN, EM. unfold cu at 1. cbn [u2hg]. rewrite (hom_visits _ OK OK').
    unfold omap. destruct (hess_visits _ _) as [vs| | |]; cbn [bind]; try reflexivity.
    change (hg_empty (N := M)) with (chg c (hg_empty (N := N))). rewrite <- E.
    rewrite (hom_ofold (unary_step f1 (ndiv (nofZ 0) (nofZ 2))) (unary_step (c f1) (c (ndiv (nofZ 0) (nofZ 2)))) (cv c) vs) by (intros; apply hom_ustep).
    unfold omap. destruct (ofold _ _ _); reflexivity.
  Qed.
  Lemma hom_binary x y f fx fy l z : halves l z -> hg_ok (u2hg x) -> hg_ok (u2hg (cu c x)) -> hg_ok (u2hg y) -> hg_ok (u2hg (cu c y)) ->
    u2_binary (cu c x) (cu c y) (c f) (c fx) (c fy) (nofZ 0) (nofZ 0) (nofZ l) = omap (cu c) (u2_binary x y f fx fy (nofZ 0) (nofZ 0) (nofZ l)).
  Proof.
    intros (El & ENl & EMl) OKx OKx' OKy OKy'. destruct H0 as (E & EN & EM). unfold u2_binary. rewrite EN, EM, ENl, EMl.
    change (u2hg (cu c x)) with (chg c (u2hg x)). change (u2hg (cu c y)) with (chg c (u2hg y)). rewrite (hom_visits _ OKx OKx'), (hom_visits _ OKy OKy').
    unfold omap. destruct (hess_visits (u2hg x) _) as [xs| | |]; cbn [bind]; try reflexivity. destruct (hess_visits (u2hg y) _) as [ys| | |]; cbn [bind]; try reflexivity.
    change (hg_empty (N := M)) with (chg c (hg_empty (N := N))). rewrite <- E, <- El. rewrite hom_merge. unfold omap.
    destruct (bin_merge _ _ _ _ _ _ _) as [r| | |]; cbn [bind]; try reflexivity.
    assert (Ec : (if negb z then cross (c (ndiv (nofZ l) (nofZ 2))) (diagmap (chg c (u2hg x))) (diagmap (chg c (u2hg y))) (chg c r) else Ret (chg c r)) =
      omap (chg c) (if negb z then cross (ndiv (nofZ l) (nofZ 2)) (diagmap (u2hg x)) (diagmap (u2hg y)) r else Ret r)).
    { destruct z; cbn [negb]; [reflexivity|]. apply hom_cross. }
    rewrite Ec. unfold omap. match goal with |- context [bind (if negb z then ?a else ?b)] => destruct (if negb z then a else b) end; reflexivity.
  Qed.
  Section Ops.
    Variables x y : ureal2 N.
    Hypothesis (OKx : hg_ok (u2hg x)) (OKx' : hg_ok (u2hg (cu c x))) (OKy : hg_ok (u2hg y)) (OKy' : hg_ok (u2hg (cu c y))).
    Lemma hom_neg : u2_neg (cu c x) = omap (cu c) (u2_neg x).
    Proof. unfold u2_neg. rewrite <- hom_unary by assumption. cbn [cu u2mu]. now rewrite Kopp, (c_ofZ c K). Qed.
    Lemma hom_add : u2_add (cu c x) (cu c y) = omap (cu c) (u2_add x y).
    Proof. unfold u2_add. rewrite <- (hom_binary x y _ _ _ 0 true) by assumption. cbn [cu u2mu]. now rewrite (c_add c K), !(c_ofZ c K). Qed.
    Lemma hom_sub : u2_sub (cu c x) (cu c y) = omap (cu c) (u2_sub x y).
    Proof. unfold u2_sub. rewrite <- (hom_binary x y _ _ _ 0 true) by assumption. cbn [cu u2mu]. now rewrite (c_sub c K), !(c_ofZ c K). Qed.
    Lemma hom_mul : u2_mul (cu c x) (cu c y) = omap (cu c) (u2_mul x y).
    Proof. unfold u2_mul. rewrite <- (hom_binary x y _ _ _ 1 false) by assumption. cbn [cu u2mu]. now rewrite (c_mul c K). Qed.
  End Ops.
End Hom.
