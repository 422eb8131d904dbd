(** * HgMap: the propagation of UReal2 commutes with the inclusion of numbers

    [lift2] maps a variable without non-numbers to the type of Math.v; unary and binary
    applied to such variables with numbers as coefficients give such variables again. *)

From Coq Require Import List ZArith Bool Reals Lra.
From Verif Require Import Base Num Map UReal HessGrad UReal2 Nan Math Math2.
Import ListNotations.
Local Open Scope R_scope.

Section MapValues.
  Context {K V W : Type} {KO : KeyOrd K} (g : V -> W).
  Notation up := (map (fun kv : K * V => (fst kv, g (snd kv)))).
  Lemma mapv_mset k v m : mset k (g v) (up m) = up (mset k v m).
  Proof.
    induction m as [|[k' v'] m IH]; [reflexivity|]. cbn [map mset fst snd].
    destruct (kcmp k k'); cbn [map fst snd]; [reflexivity|reflexivity|]. now rewrite IH.
  Qed.
  Lemma mapv_mfind k m : mfind k (up m) = option_map g (mfind k m).
  Proof.
    induction m as [|[k' v'] m IH]; [reflexivity|]. cbn [map mfind fst snd].
    destruct (kcmp k k'); cbn [option_map]; [reflexivity|reflexivity|]. exact IH.
  Qed.
  Lemma mapv_mget d k m : mget (g d) k (up m) = g (mget d k m).
  Proof. unfold mget. rewrite mapv_mfind. now destruct (mfind k m). Qed.
  Lemma mapv_mupd d k f f' m : (forall v, f' (g v) = g (f v)) ->
    mupd (g d) k f' (up m) = up (mupd d k f m).
  Proof. intro H. unfold mupd. rewrite mapv_mget, H. apply mapv_mset. Qed.
End MapValues.

Notation upd := (map (fun kd : Z * diag RN => (fst kd, lift_diag (snd kd)))).
Notation upt := (map (fun kv : (Z * Z) * T RN => (fst kv, Some (snd kv) : T FN))).

Lemma lift_diag0 : lift_diag diag0 = diag0.
Proof. reflexivity. Qed.
Lemma lift_hg_diag id f f' h : (forall d, f' (lift_diag d) = lift_diag (f d)) ->
  hg_diag id f' (lift_hg h) = lift_hg (hg_diag id f h).
Proof.
  intro H. unfold hg_diag, lift_hg. cbn [diagmap trimap]. f_equal.
  rewrite <- lift_diag0 at 1. now apply mapv_mupd.
Qed.
Lemma lift_hg_tri i j (f : T RN -> T RN) (f' : T FN -> T FN) h : (forall v : R, f' (Some v) = Some (f v)) ->
  hg_tri i j f' (lift_hg h) = omap lift_hg (hg_tri i j f h).
Proof.
  intro H. unfold hg_tri. destruct (assert_ (i <? j)%Z); cbn [bind omap]; try reflexivity.
  unfold omap. cbn [bind]. f_equal. unfold lift_hg. cbn [diagmap trimap]. f_equal.
  exact (mapv_mupd (fun v => Some v : T FN) (n0 : T RN) (i, j) f f' _ H).
Qed.
Lemma lift_hg_hhess i j (f : T RN -> T RN) (f' : T FN -> T FN) h : (forall v : R, f' (Some v) = Some (f v)) ->
  hg_hhess i j f' (lift_hg h) = omap lift_hg (hg_hhess i j f h).
Proof.
  intro H. unfold hg_hhess. destruct (negb (i =? j)%Z); [now apply lift_hg_tri|].
  unfold omap. cbn [bind]. f_equal. apply lift_hg_diag. intros [a b c]. unfold lift_diag. cbn [dgrad dhh dmom].
  f_equal. apply H.
Qed.

(** ** iterators *)

Definition lift_it (it : iter RN) : iter FN :=
  mkIt (upd (it_min it)) (upd (it_max it)) (upt (it_tri it)) (it_skip it).
Definition lift_v (v : visit RN) : visit FN :=
  mkV (vid1 v) (vid2 v) (lift_diag (vd1 v)) (lift_diag (vd2 v)) (Some (vval v) : FN).

Lemma at_end_map {A B} (f : A -> B) l : at_end (map f l) = at_end l.
Proof. now destruct l. Qed.
Lemma it_eqb_map {A B} (f : A -> B) a b : it_eqb (map f a) (map f b) = it_eqb a b.
Proof. unfold it_eqb. now rewrite !map_length. Qed.
Lemma it_next_map {A B} (f : A -> B) l : it_next (map f l) = omap (map f) (it_next l).
Proof. now destruct l. Qed.
Lemma advance_map id l : advance_to id (upd l) = upd (advance_to id l).
Proof.
  induction l as [|[k d] l IH]; [reflexivity|]. cbn [map advance_to fst snd].
  destruct (k <? id)%Z; [exact IH|reflexivity].
Qed.
Lemma at_key_map id l : at_key id (upd l) = at_key id l.
Proof. now destruct l as [|[k d] l]. Qed.

Lemma lift_hess_next it : hess_next (lift_it it) = omap lift_it (hess_next it).
Proof.
  destruct it as [mn mx tr sk]. unfold hess_next, lift_it. cbn [it_min it_max it_tri it_skip].
  rewrite !at_end_map, it_eqb_map, !it_next_map.
  destruct mn as [|[i d1] mn]; [reflexivity|]. destruct mx as [|[j d2] mx]; [reflexivity|].
  cbn [map fst snd at_end negb andb assert_ bind it_next omap].
  destruct (it_eqb _ _).
  - cbn [bind omap]. destruct mx as [|[j' d3] mx]; destruct tr as [|[[a b] t] tr]; cbn [map fst snd at_end negb orb assert_ bind omap].
    + unfold omap. cbn [bind]. rewrite at_end_map. destruct (assert_ _); reflexivity.
    + reflexivity.
    + unfold omap. cbn [bind]. rewrite at_end_map. destruct (assert_ _); reflexivity.
    + destruct (pleb (i, j') (a, b)); cbn [bind assert_]; [|reflexivity].
      destruct (i <? a)%Z; cbn [bind].
      * rewrite at_end_map. destruct (assert_ _); reflexivity.
      * destruct sk; cbn [bind].
        -- change ((j', lift_diag d3) :: upd mx) with (upd ((j', d3) :: mx)).
           rewrite advance_map, at_key_map. destruct (assert_ (at_key b _)); cbn [bind]; try reflexivity.
           rewrite at_end_map. cbn [at_end]. destruct (assert_ _); reflexivity.
        -- reflexivity.
  - unfold omap. destruct tr as [|tr0 tr]; cbn [map it_next bind]; [reflexivity|].
    destruct tr as [|[[a b] t] tr]; cbn [map fst snd at_end negb orb assert_ bind].
    + rewrite at_end_map. destruct (assert_ _); reflexivity.
    + destruct (pleb (i, j) (a, b)); cbn [bind assert_]; [|reflexivity].
      destruct (i <? a)%Z; cbn [bind].
      * rewrite at_end_map. destruct (assert_ _); reflexivity.
      * destruct sk; cbn [bind].
        -- change ((j, lift_diag d2) :: upd mx) with (upd ((j, d2) :: mx)).
           rewrite advance_map, at_key_map. destruct (assert_ (at_key b _)); cbn [bind]; try reflexivity.
           rewrite at_end_map. cbn [at_end]. destruct (assert_ _); reflexivity.
        -- reflexivity.
Qed.
Lemma lift_hess_visit it : hess_visit (lift_it it) = omap lift_v (hess_visit it).
Proof.
  destruct it as [mn mx tr sk]. unfold hess_visit, lift_it. cbn [it_min it_max it_tri it_skip].
  rewrite at_end_map, it_eqb_map.
  destruct mn as [|[i d1] mn]; [reflexivity|]. destruct mx as [|[j d2] mx]; [reflexivity|].
  cbn [map fst snd]. destruct (assert_ _); cbn [bind]; try reflexivity.
  destruct (it_eqb _ _); [reflexivity|].
  destruct tr as [|[k t] tr]; cbn [map fst snd]; [now destruct sk|].
  destruct sk; [reflexivity|]. cbn [bind]. now destruct (peqb k (i, j)).
Qed.
Lemma lift_walk fuel : forall it,
  walk hess_next hess_visit fuel (lift_it it) = omap (map lift_v) (walk hess_next hess_visit fuel it).
Proof.
  induction fuel as [|fuel IH]; intro it; [reflexivity|]. cbn [walk].
  replace (it_more (lift_it it)) with (it_more it) by (unfold it_more, lift_it; cbn [it_min it_max]; now rewrite !at_end_map).
  destruct (it_more it); [|reflexivity].
  rewrite lift_hess_visit, lift_hess_next. unfold omap.
  destruct (hess_visit it); cbn [bind]; try reflexivity.
  destruct (hess_next it) as [it'| | |]; cbn [bind]; try reflexivity.
  rewrite IH. unfold omap. destruct (walk _ _ fuel it'); reflexivity.
Qed.
Lemma lift_hess_visits h skip : hess_visits (lift_hg h) skip = omap (map lift_v) (hess_visits h skip).
Proof.
  unfold hess_visits. replace (walk_fuel (lift_hg h)) with (walk_fuel h).
  - apply (lift_walk (walk_fuel h) (hess_begin h skip)).
  - unfold walk_fuel, lift_hg. cbn [diagmap trimap]. now rewrite !map_length.
Qed.

(** ** unary and binary *)

Lemma lift_ofold {A B A' B'} (f : A -> B -> outcome A) (f' : A' -> B' -> outcome A') (g : A -> A') (k : B -> B') l :
  (forall a b, f' (g a) (k b) = omap g (f a b)) -> forall a,
  ofold f' (map k l) (g a) = omap g (ofold f l a).
Proof.
  intro H. induction l as [|b l IH]; intro a; [reflexivity|]. cbn [map ofold]. rewrite H. unfold omap at 1.
  destruct (f a b); cbn [bind]; try reflexivity. apply IH.
Qed.
Ltac step := intros; cbn [lift_diag lift_v vid1 vid2 vd1 vd2 vval dgrad dhh dmom]; reflexivity.
Lemma lift_unary_step (d h : R) r v :
  unary_step (N := FN) (Some d) (Some h) (lift_hg r) (lift_v v) = omap lift_hg (unary_step (N := RN) d h r v).
Proof.
  unfold unary_step. cbn [vid1 vid2 lift_v].
  rewrite (lift_hg_hhess _ _ (fun _ => nadd (nmul (nmul (h : RN) (dgrad (vd1 v))) (dgrad (vd2 v))) (nmul (d : RN) (vval v)))) by step.
  unfold omap. destruct (hg_hhess _ _ _ r) as [r'| | |]; cbn [bind]; try reflexivity. f_equal.
  destruct (vid1 v =? vid2 v)%Z; [|reflexivity]. apply lift_hg_diag. step.
Qed.
Lemma half_some (a : R) : ndiv (Some a : FN) (nofZ 2 : FN) = Some (a / 2).
Proof. cbn. destruct (Req_EM_T 2 0) as [E|E]; [exfalso; lra|reflexivity]. Qed.
Lemma lift_empty : lift_hg hg_empty = hg_empty.
Proof. reflexivity. Qed.
Lemma eqb0_some (a : R) : neqb (Some a : FN) (n0 : FN) = neqb (a : RN) (n0 : RN).
Proof. reflexivity. Qed.
Lemma lift_u2_unary x (f f1 f2 : R) :
  u2_unary (lift2 x) (Some f : FN) (Some f1 : FN) (Some f2 : FN) = omap lift2 (u2_unary x (f : RN) (f1 : RN) (f2 : RN)).
Proof.
  unfold u2_unary. cbv zeta. rewrite half_some, eqb0_some. change (u2hg (lift2 x)) with (lift_hg (u2hg x)).
  rewrite lift_hess_visits. change (ndiv (f2 : RN) (nofZ 2)) with (f2 / 2). unfold omap.
  destruct (hess_visits (u2hg x) _) as [vs| | |]; cbn [bind]; try reflexivity.
  rewrite <- lift_empty, (lift_ofold (unary_step (N := RN) f1 (f2 / 2)) _ lift_hg lift_v) by apply lift_unary_step.
  unfold omap. destruct (ofold _ vs _); reflexivity.
Qed.
Lemma lift_bin_y (d h : R) v fresh r :
  bin_y (N := FN) (Some d) (Some h) (lift_v v) fresh (lift_hg r) = omap lift_hg (bin_y (N := RN) d h v fresh r).
Proof.
  unfold bin_y. cbn [vid1 vid2 lift_v].
  match goal with |- bind ?a _ = _ => assert (E : a = omap lift_hg (if fresh then
            r <- hg_hhess (vid1 v) (vid2 v) (fun _ => n0 : RN) r;;
            Ret (if (vid1 v =? vid2 v)%Z
                 then hg_diag (vid1 v) (fun d => mkD (dgrad d) (dhh d) (dmom (vd1 v))) r
                 else r)
          else Ret r)) end.
  { destruct fresh; [|reflexivity].
    rewrite (lift_hg_hhess _ _ (fun _ => n0 : RN)) by reflexivity. unfold omap.
    destruct (hg_hhess _ _ _ r) as [r'| | |]; cbn [bind]; try reflexivity. f_equal.
    destruct (vid1 v =? vid2 v)%Z; [|reflexivity]. apply lift_hg_diag. step. }
  rewrite E. clear E. unfold omap. destruct (if fresh then _ else _) as [r1| | |]; cbn [bind]; try reflexivity.
  rewrite (lift_hg_hhess _ _ (fun p => nadd (nadd p (nmul (nmul (h : RN) (dgrad (vd1 v))) (dgrad (vd2 v)))) (nmul (d : RN) (vval v)))) by step.
  unfold omap. destruct (hg_hhess _ _ _ r1) as [r'| | |]; cbn [bind]; try reflexivity. f_equal.
  destruct (vid1 v =? vid2 v)%Z; [|reflexivity]. apply lift_hg_diag. step.
Qed.
Lemma vid_lift v : vid (lift_v v) = vid v.
Proof. reflexivity. Qed.
Lemma head_lift (l : list (visit RN)) d :
  match map lift_v l with v :: _ => vid v | [] => d end = match l with v :: _ => vid v | [] => d end.
Proof. now destruct l. Qed.
Lemma lift_bin_merge (dx dy hx hy : R) xs : forall ys r,
  bin_merge (N := FN) (Some dx) (Some dy) (Some hx) (Some hy) (map lift_v xs) (map lift_v ys) (lift_hg r)
  = omap lift_hg (bin_merge (N := RN) dx dy hx hy xs ys r).
Proof.
  induction xs as [|vx xs IHx]; induction ys as [|vy ys IHy]; intro r.
  - reflexivity.
  - cbn [map bin_merge]. rewrite !vid_lift. destruct (pleb _ _); [reflexivity|].
    rewrite lift_bin_y. unfold omap at 1. destruct (bin_y _ _ _ _ r) as [r1| | |]; cbn [bind]; try reflexivity.
    apply IHy.
  - cbn [map bin_merge]. rewrite !vid_lift. destruct (pleb _ _); [|reflexivity].
    unfold bin_x. rewrite lift_unary_step. unfold omap at 1. destruct (unary_step _ _ r vx) as [r1| | |]; cbn [bind]; try reflexivity.
    destruct (pleb _ _); [reflexivity|]. apply (IHx []).
  - cbn [map bin_merge]. rewrite !vid_lift. destruct (pleb _ _).
    + unfold bin_x. rewrite lift_unary_step. unfold omap at 1. destruct (unary_step _ _ r vx) as [r1| | |]; cbn [bind]; try reflexivity.
      destruct (pleb _ _).
      * rewrite lift_bin_y. unfold omap at 1. destruct (bin_y _ _ _ _ r1) as [r2| | |]; cbn [bind]; try reflexivity.
        apply IHx.
      * apply (IHx (vy :: ys)).
    + rewrite lift_bin_y. unfold omap at 1. destruct (bin_y _ _ _ _ r) as [r1| | |]; cbn [bind]; try reflexivity.
      apply IHy.
Qed.
Lemma lift_cross_step (h : R) px py r :
  cross_step (N := FN) (Some h) (fst px, lift_diag (snd px)) (fst py, lift_diag (snd py)) (lift_hg r)
  = omap lift_hg (cross_step (N := RN) h px py r).
Proof.
  unfold cross_step. cbn [fst snd]. destruct (negb _).
  - apply lift_hg_tri. step.
  - unfold omap. cbn [bind]. f_equal. apply lift_hg_diag. step.
Qed.
Lemma lift_cross (h : R) dx dy r :
  cross (N := FN) (Some h) (upd dx) (upd dy) (lift_hg r) = omap lift_hg (cross (N := RN) h dx dy r).
Proof.
  unfold cross. apply lift_ofold. intros a b.
  apply (lift_ofold (fun r py => cross_step (N := RN) h b py r)
           (fun r py => cross_step (N := FN) (Some h) (fst b, lift_diag (snd b)) py r) lift_hg).
  intros. apply lift_cross_step.
Qed.
Lemma lift_u2_binary x y (f fx fy fxx fyy fxy : R) :
  u2_binary (lift2 x) (lift2 y) (Some f : FN) (Some fx : FN) (Some fy : FN) (Some fxx : FN) (Some fyy : FN) (Some fxy : FN)
  = omap lift2 (u2_binary x y (f : RN) (fx : RN) (fy : RN) (fxx : RN) (fyy : RN) (fxy : RN)).
Proof.
  unfold u2_binary. cbv zeta. rewrite !half_some, !eqb0_some.
  change (u2hg (lift2 x)) with (lift_hg (u2hg x)). change (u2hg (lift2 y)) with (lift_hg (u2hg y)).
  rewrite !lift_hess_visits. 
  change (ndiv (fxx : RN) (nofZ 2)) with (fxx / 2). change (ndiv (fyy : RN) (nofZ 2)) with (fyy / 2).
  change (ndiv (fxy : RN) (nofZ 2)) with (fxy / 2). unfold omap.
  destruct (hess_visits (u2hg x) _) as [xs| | |]; cbn [bind]; try reflexivity.
  destruct (hess_visits (u2hg y) _) as [ys| | |]; cbn [bind]; try reflexivity.
  rewrite <- lift_empty, lift_bin_merge. unfold omap.
  destruct (bin_merge (N := RN) _ _ _ _ xs ys _) as [r| | |]; cbn [bind]; try reflexivity.
  destruct (negb _); [|reflexivity]. unfold lift_hg at 1 2. cbn [diagmap]. rewrite lift_cross. unfold omap.
  destruct (cross _ _ _ r); reflexivity.
Qed.
