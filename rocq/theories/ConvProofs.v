(** * ConvProofs: the queries of UReal2 commute with casts (C48) *)

From Coq Require Import List ZArith Bool Sorted Lia.
From Verif Require Import Base Num Map UReal World HessGrad Moments CheckMoments UReal2 World2 HessProofs U2Facts U2World.
From Verif Require Import SpecU2Run SpecU2 U2Proofs SpecCast.
Import ListNotations.

Lemma c2_B_cons {N : Num} (va vb : visit N) a b m : c2_B (va :: a) (vb :: b) m =
  (_ <- assert_ (vid1 va <? vid2 va)%Z;;
   _ <- assert_ (vid1 vb <? vid2 vb)%Z;;
   let m' := if peqb (vid va) (vid vb) then nadd m (nmul (nmul (nofZ (2 * 2)) (vval va)) (vval vb)) else m in
   if pleb (vid va) (vid vb) then
     if pleb (vid vb) (vid va) then c2_B a b m' else c2_B a (vb :: b) m'
   else c2_B (va :: a) b m').
Proof. reflexivity. Qed.

Section Conv.
  Context {N M : Num} (c : N -> M) (K : keeps_ring c).

  Lemma c_0 : c n0 = n0. Proof. apply K. Qed.
  Lemma c_ofZ z : c (nofZ z) = nofZ z. Proof. apply K. Qed.
  Lemma c_add a b : c (nadd a b) = nadd (c a) (c b). Proof. apply K. Qed.
  Lemma c_sub a b : c (nsub a b) = nsub (c a) (c b). Proof. apply K. Qed.
  Lemma c_mul a b : c (nmul a b) = nmul (c a) (c b). Proof. apply K. Qed.
  Ltac push := repeat rewrite ?c_add, ?c_mul, ?c_sub, ?c_ofZ, ?c_0.

  Definition cd (d : diag N) : diag M := mkD (c (dgrad d)) (c (dhh d)) (option_map (moms_convert c) (dmom d)).
  Definition ckd (kd : Z * diag N) : Z * diag M := (fst kd, cd (snd kd)).
  Definition ckt (kt : (Z * Z) * N) : (Z * Z) * M := (fst kt, c (snd kt)).
  Definition chg (h : hessgrad N) : hessgrad M := mkHG (map ckd (diagmap h)) (map ckt (trimap h)).

  Lemma keys_map {A B K' : Type} (f : K' * A -> K' * B) l : (forall p, fst (f p) = fst p) -> map fst (map f l) = map fst l.
  Proof. intro H. rewrite map_map. apply map_ext. exact H. Qed.
  Lemma convert_chg h : hg_ok h -> hg_convert c h = chg h.
  Proof.
    intros (SD & ST & _). unfold hg_convert, chg. f_equal.
    - apply (fold_mset_map (fun kv => ckd kv) (diagmap h) []). unfold msorted. cbn [app]. rewrite keys_map; [exact SD|reflexivity].
    - apply (fold_mset_map (fun kv => ckt kv) (trimap h) []). unfold msorted. cbn [app]. rewrite keys_map; [exact ST|reflexivity].
  Qed.

  Lemma find_t k t : mfind k (map ckt t) = option_map c (mfind k t).
  Proof. induction t as [|[k' v] t IH]; [reflexivity|]. cbn [map mfind ckt ckd fst snd]. destruct (kcmp k k'); [reflexivity|reflexivity|exact IH]. Qed.
  Lemma find_d k t : mfind k (map ckd t) = option_map cd (mfind k t).
  Proof. induction t as [|[k' v] t IH]; [reflexivity|]. cbn [map mfind ckt ckd fst snd]. destruct (kcmp k k'); [reflexivity|reflexivity|exact IH]. Qed.

  (** ** iterators *)
  Definition cit (it : iter N) : iter M :=
    mkIt (map ckd (it_min it)) (map ckd (it_max it)) (map ckt (it_tri it)) (it_skip it).
  Definition cv (v : visit N) : visit M := mkV (vid1 v) (vid2 v) (cd (vd1 v)) (cd (vd2 v)) (c (vval v)).
  Lemma end_map {A B} (f : A -> B) l : at_end (map f l) = at_end l.
  Proof. now destruct l. Qed.
  Lemma next_map {A B} (f : A -> B) l : it_next (map f l) = omap (map f) (it_next l).
  Proof. now destruct l. Qed.
  Lemma adv_map id l : advance_to id (map ckd l) = map ckd (advance_to id l).
  Proof. induction l as [|[k d] l IH]; [reflexivity|]. cbn. destruct (k <? id)%Z; [exact IH|reflexivity]. Qed.
  Lemma key_map id l : at_key id (map ckd l) = at_key id l.
  Proof. now destruct l as [|[k d] l]. Qed.
  Lemma tadv_map id l : tri_advance id (map ckt l) = map ckt (tri_advance id l).
  Proof. induction l as [|[k d] l IH]; [reflexivity|]. cbn. destruct (pltb k id); [exact IH|reflexivity]. Qed.

  Lemma update_map it : update_diag (cit it) = omap cit (update_diag it).
  Proof.
    destruct it as [mn mx tr sk]. unfold update_diag, cit. cbn [it_min it_max it_tri it_skip].
    destruct tr as [|[[i j] x] tr]; [reflexivity|]. cbn [map ckt fst snd].
    rewrite !adv_map, !key_map. destruct (assert_ (at_key i _)); cbn [bind omap]; try reflexivity.
    unfold omap. destruct (assert_ (at_key j _)); reflexivity.
  Qed.
  Lemma begin_map h skip : tri_begin (chg h) skip = omap cit (tri_begin h skip).
  Proof.
    unfold tri_begin, chg. cbn [diagmap trimap]. destruct skip.
    - exact (update_map (mkIt (diagmap h) (diagmap h) (trimap h) true)).
    - destruct (diagmap h) as [|[k d] l]; [reflexivity|]. cbn [map]. unfold omap. cbn [bind]. f_equal.
      unfold cit. cbn [it_min it_max it_tri it_skip]. rewrite end_map. destruct (at_end l); reflexivity.
  Qed.
  Lemma tnext_map it : tri_next (cit it) = omap cit (tri_next it).
  Proof.
    unfold tri_next, omap. change (it_skip (cit it)) with (it_skip it). destruct (it_skip it) eqn:Sk.
    - change (it_tri (cit it)) with (map ckt (it_tri it)). rewrite next_map. unfold omap.
      destruct (it_next (it_tri it)) as [t| | |]; cbn [bind]; try reflexivity.
      exact (update_map (mkIt (it_min it) (it_max it) t true)).
    - change (it_max (cit it)) with (map ckd (it_max it)). change (it_min (cit it)) with (map ckd (it_min it)).
      change (it_tri (cit it)) with (map ckt (it_tri it)).
      rewrite !next_map. unfold omap. destruct (it_next (it_max it)) as [m0| | |]; cbn [bind]; try reflexivity.
      rewrite end_map. destruct (at_end m0).
      + destruct (it_next (it_min it)) as [mn| | |]; cbn [bind]; try reflexivity.
        destruct mn as [|[i d] mn]; [reflexivity|]. cbn [map]. destruct mn as [|[j d'] mn]; [reflexivity|].
        cbn [map ckd fst snd bind]. rewrite tadv_map. reflexivity.
      + cbn [bind]. destruct m0 as [|[j d] m0]; [reflexivity|]. cbn [map ckd fst snd].
        destruct (it_min it) as [|[i d'] mn]; [reflexivity|]. cbn [map ckd fst snd bind]. rewrite tadv_map. reflexivity.
  Qed.
  Lemma tvisit_map it : tri_visit (cit it) = omap cv (tri_visit it).
  Proof.
    destruct it as [mn mx tr sk]. unfold tri_visit, cit. cbn [it_min it_max it_tri it_skip].
    destruct mn as [|[i d1] mn]; [reflexivity|]. destruct mx as [|[j d2] mx]; [reflexivity|].
    cbn [map ckd fst snd]. destruct sk; destruct tr as [|[k x] tr]; cbn [map ckt fst snd]; unfold omap; cbn [bind]; try reflexivity.
    - unfold cv. cbn. now rewrite c_0.
    - unfold cv. cbn [vid1 vid2 vd1 vd2 vval]. destruct (peqb k (i, j)); [reflexivity|]. now rewrite c_0.
  Qed.
  Lemma walk_map fuel : forall it,
    walk tri_next tri_visit fuel (cit it) = omap (map cv) (walk tri_next tri_visit fuel it).
  Proof.
    induction fuel as [|fuel IH]; intro it; [reflexivity|]. cbn [walk].
    replace (it_more (cit it)) with (it_more it) by (unfold it_more, cit; cbn [it_min it_max]; now rewrite !end_map).
    destruct (it_more it); [|reflexivity].
    rewrite tvisit_map, tnext_map. unfold omap.
    destruct (tri_visit it); cbn [bind]; try reflexivity.
    destruct (tri_next it) as [it'| | |]; cbn [bind]; try reflexivity.
    rewrite IH. unfold omap. destruct (walk _ _ fuel it'); reflexivity.
  Qed.
  Lemma visits_map h skip : tri_visits (chg h) skip = omap (map cv) (tri_visits h skip).
  Proof.
    unfold tri_visits. rewrite begin_map. unfold omap.
    destruct (tri_begin h skip); cbn [bind]; try reflexivity.
    replace (walk_fuel (chg h)) with (walk_fuel h) by (unfold walk_fuel, chg; cbn [diagmap trimap]; now rewrite !map_length).
    rewrite walk_map. reflexivity.
  Qed.

  (** ** loops *)
  Lemma for_each_map {A B} (f : A -> N -> N) (f' : B -> M -> M) (k : A -> B) l : (forall a m, f' (k a) (c m) = c (f a m)) ->
    forall m, for_each f' (map k l) (c m) = c (for_each f l m).
  Proof. intro H. unfold for_each. induction l as [|a l IH]; intro m; [reflexivity|]. cbn. rewrite H. apply IH. Qed.
  Lemma for_tails_map {A B} (f : A -> list A -> N -> N) (f' : B -> list B -> M -> M) (k : A -> B) l :
    (forall a r m, f' (k a) (map k r) (c m) = c (f a r m)) -> forall m, for_tails f' (map k l) (c m) = c (for_tails f l m).
  Proof. intro H. induction l as [|a l IH]; intro m; [reflexivity|]. cbn. rewrite H. apply IH. Qed.
  Lemma ofor_tails_map {A B} (f : A -> list A -> N -> outcome N) (f' : B -> list B -> M -> outcome M) (k : A -> B) l :
    (forall a r m, f' (k a) (map k r) (c m) = omap c (f a r m)) -> forall m, ofor_tails f' (map k l) (c m) = omap c (ofor_tails f l m).
  Proof.
    intro H. induction l as [|a l IH]; intro m; [reflexivity|]. cbn. rewrite H. unfold omap.
    destruct (f a l m); cbn [bind]; try reflexivity. apply IH.
  Qed.
  Lemma ofor_while_map {A B} (p : A -> bool) (p' : B -> bool) (f : A -> N -> outcome N) (f' : B -> M -> outcome M) (k : A -> B) l :
    (forall a, p' (k a) = p a) -> (forall a m, f' (k a) (c m) = omap c (f a m)) ->
    forall m, ofor_while p' f' (map k l) (c m) = omap c (ofor_while p f l m).
  Proof.
    intros Hp H. induction l as [|a l IH]; intro m; [reflexivity|]. cbn. rewrite Hp. destruct (p a); [|reflexivity].
    rewrite H. unfold omap. destruct (f a m); cbn [bind]; try reflexivity. apply IH.
  Qed.
  Lemma omapM_map {A A' B B'} (f : A -> outcome B) (f' : A' -> outcome B') (k : A -> A') (g : B -> B') l :
    (forall a, f' (k a) = omap g (f a)) -> omapM f' (map k l) = omap (map g) (omapM f l).
  Proof.
    intro H. induction l as [|a l IH]; [reflexivity|]. cbn. rewrite H, IH. unfold omap.
    destruct (f a); cbn [bind]; try reflexivity. destruct (omapM f l); reflexivity.
  Qed.

  Definition crd (d : rdiag N) : rdiag M := mkRD (c (G d)) (c (H d)) (moms_convert c (Moments.M d)).
  Definition cde (p : dentry N) : dentry M := (fst p, crd (snd p)).
  Definition cte (t : tentry N) : tentry M := mkT (id1 t) (id2 t) (crd (diag1 t)) (crd (diag2 t)) (c (val t)).
  Lemma read_diag_map d : read_diag (cd d) = omap crd (read_diag d).
  Proof. unfold read_diag, cd. cbn. destruct (dmom d); reflexivity. Qed.
  Lemma read_entry_map d : read_entry (ckd d) = omap cde (read_entry d).
  Proof. unfold read_entry, ckd. cbn [fst snd]. rewrite read_diag_map. unfold omap. destruct (read_diag (snd d)); reflexivity. Qed.
  Lemma read_visit_map d : read_visit (cv d) = omap cte (read_visit d).
  Proof.
    unfold read_visit, cv. cbn [vd1 vd2 vid1 vid2 vval]. rewrite !read_diag_map. unfold omap.
    destruct (read_diag (vd1 d)); cbn [bind]; try reflexivity. destruct (read_diag (vd2 d)); reflexivity.
  Qed.

  Ltac arith := intros; cbv zeta; cbn [crd cde cte fst snd G H Moments.M moms_convert v3 v4 v5 v6 v7 v8 id1 id2 diag1 diag2 val];
    push; reflexivity.

  Lemma m1_map h : compute_m1 (chg h) = c (compute_m1 h).
  Proof. unfold compute_m1. rewrite <- c_0. apply for_each_map. intros [k d] m. cbn. now push. Qed.
  Lemma m2_A_map a m : m2_A (cde a) (c m) = c (m2_A a m). Proof. unfold m2_A. arith. Qed.
  Lemma m2_B_map a m : m2_B (cte a) (c m) = c (m2_B a m). Proof. unfold m2_B. arith. Qed.
  Lemma m2_map h : compute_m2 (chg h) = omap c (compute_m2 h).
  Proof.
    unfold compute_m2. change (diagmap (chg h)) with (map ckd (diagmap h)).
    rewrite (omapM_map read_entry read_entry ckd cde) by apply read_entry_map. rewrite visits_map. unfold omap.
    destruct (omapM read_entry (diagmap h)); cbn [bind]; try reflexivity.
    destruct (tri_visits h false) as [ts| | |]; cbn [bind]; try reflexivity.
    rewrite (omapM_map read_visit read_visit cv cte) by apply read_visit_map. unfold omap.
    destruct (omapM read_visit ts); cbn [bind]; try reflexivity. f_equal. unfold m2_loops. rewrite <- c_0.
    rewrite (for_each_map m2_A m2_A cde) by apply m2_A_map. apply for_each_map. apply m2_B_map.
  Qed.

  Lemma m3_C_map a b it m : m3_C (c a) (c b) (cde it) (c m) = c (m3_C a b it m). Proof. unfold m3_C. arith. Qed.
  Lemma m3_B_map d it r m : m3_B (crd d) (cde it) (map cde r) (c m) = c (m3_B d it r m).
  Proof.
    unfold m3_B. cbv zeta. rewrite <- (for_each_map (m3_C (H d) (H (snd it))) (m3_C (H (crd d)) (H (snd (cde it)))) cde) by (intros; apply m3_C_map).
    f_equal. arith.
  Qed.
  Lemma m3_F_map id h it m : m3_F id (c h) (cte it) (c m) = c (m3_F id h it m).
  Proof. unfold m3_F. cbn [id1 id2 cte]. destruct (_ || _); [reflexivity|]. arith. Qed.
  Lemma m3_A_map ts it r m : m3_A (map cte ts) (cde it) (map cde r) (c m) = c (m3_A ts it r m).
  Proof.
    unfold m3_A. cbv zeta.
    rewrite <- (for_each_map (m3_F (fst it) (H (snd it))) (m3_F (fst (cde it)) (H (snd (cde it)))) cte) by (intros; apply m3_F_map).
    f_equal. rewrite <- (for_tails_map (m3_B (snd it)) (m3_B (snd (cde it))) cde) by (intros; apply m3_B_map). f_equal. arith.
  Qed.
  Lemma tri_get_map h i j : hg_tri_get (chg h) i j = omap c (hg_tri_get h i j).
  Proof.
    unfold hg_tri_get. destruct (assert_ _); cbn [bind omap]; try reflexivity. unfold omap. cbn [bind]. f_equal.
    unfold mget, chg. cbn [trimap]. rewrite find_t. destruct (mfind _ _); [reflexivity|]. symmetry. apply c_0.
  Qed.
  Lemma m3_E_map h it it2 m : m3_E (chg h) (cte it) (cte it2) (c m) = omap c (m3_E h it it2 m).
  Proof.
    unfold m3_E. cbv zeta. change (id2 (cte it)) with (id2 it). change (id2 (cte it2)) with (id2 it2). rewrite tri_get_map. unfold omap.
    destruct (hg_tri_get h _ _); cbn [bind]; try reflexivity. f_equal. arith.
  Qed.
  Lemma m3_D_map it m : m3_D (cte it) (c m) = c (m3_D it m). Proof. unfold m3_D. arith. Qed.
  Lemma m3_DE_map h it r m : m3_DE (chg h) (cte it) (map cte r) (c m) = omap c (m3_DE h it r m).
  Proof.
    unfold m3_DE. rewrite m3_D_map. apply ofor_while_map; [reflexivity|]. intros. apply m3_E_map.
  Qed.
  Lemma m3_map h : compute_m3 (chg h) = omap c (compute_m3 h).
  Proof.
    unfold compute_m3. change (diagmap (chg h)) with (map ckd (diagmap h)).
    rewrite (omapM_map read_entry read_entry ckd cde) by apply read_entry_map. rewrite visits_map. unfold omap.
    destruct (omapM read_entry (diagmap h)); cbn [bind]; try reflexivity.
    destruct (tri_visits h true) as [ts| | |]; cbn [bind]; try reflexivity.
    rewrite (omapM_map read_visit read_visit cv cte) by apply read_visit_map. unfold omap.
    destruct (omapM read_visit ts) as [ts'| | |]; cbn [bind]; try reflexivity. rewrite <- c_0.
    rewrite (for_tails_map (m3_A ts') (m3_A (map cte ts')) cde) by (intros; apply m3_A_map).
    apply (ofor_tails_map (m3_DE h) (m3_DE (chg h)) cte). intros; apply m3_DE_map.
  Qed.

  Lemma m4_D_map id d d2 d3 it m : m4_D id (crd d) (crd d2) (crd d3) (cde it) (c m) = c (m4_D id d d2 d3 it m).
  Proof. unfold m4_D. cbn [fst cde]. destruct (id =? fst it)%Z; [reflexivity|]. arith. Qed.
  Lemma m4_C_map id d d2 it r m : m4_C id (crd d) (crd d2) (cde it) (map cde r) (c m) = c (m4_C id d d2 it r m).
  Proof.
    unfold m4_C. cbn [fst cde]. destruct (id =? fst it)%Z; [reflexivity|]. cbv zeta.
    rewrite <- (for_each_map (m4_D id d d2 (snd it)) (m4_D id (crd d) (crd d2) (snd (cde it))) cde) by (intros; apply m4_D_map).
    f_equal. arith.
  Qed.
  Lemma m4_B0_map d d2 m : m4_B0 (crd d) (crd d2) (c m) = c (m4_B0 d d2 m). Proof. unfold m4_B0. arith. Qed.
  Lemma m4_B_map it it2 r m : m4_B (cde it) (cde it2) (map cde r) (c m) = c (m4_B it it2 r m).
  Proof.
    unfold m4_B. cbn [fst snd cde]. destruct (fst it =? fst it2)%Z; [reflexivity|]. rewrite m4_B0_map.
    apply for_tails_map. intros; apply m4_C_map.
  Qed.
  Lemma m4_F0_map d d1 d2 h m : m4_F0 (crd d) (crd d1) (crd d2) (c h) (c m) = c (m4_F0 d d1 d2 h m). Proof. unfold m4_F0. arith. Qed.
  Lemma m4_F_map it it2 m : m4_F (cde it) (cte it2) (c m) = c (m4_F it it2 m).
  Proof. unfold m4_F. cbn [fst snd cde cte id1 id2 diag1 diag2 val]. destruct (_ || _); [reflexivity|]. apply m4_F0_map. Qed.
  Lemma m4_A0_map d m : m4_A0 (crd d) (c m) = c (m4_A0 d m). Proof. unfold m4_A0. arith. Qed.
  Lemma m4_A_map ds ts it m : m4_A (map cde ds) (map cte ts) (cde it) (c m) = c (m4_A ds ts it m).
  Proof.
    unfold m4_A. cbv zeta. change (snd (cde it)) with (crd (snd it)). rewrite m4_A0_map.
    rewrite (for_tails_map (m4_B it) (m4_B (cde it)) cde) by (intros; apply m4_B_map).
    apply for_each_map. intros; apply m4_F_map.
  Qed.
  Lemma m4_E0_map d1 d2 h m : m4_E0 (crd d1) (crd d2) (c h) (c m) = c (m4_E0 d1 d2 h m). Proof. unfold m4_E0. arith. Qed.
  Lemma m4_G2_map d1 d2 d h h2 m : m4_G2 (crd d1) (crd d2) (crd d) (c h) (c h2) (c m) = c (m4_G2 d1 d2 d h h2 m). Proof. unfold m4_G2. arith. Qed.
  Lemma m4_G3_map d1 d2 d h h2 m : m4_G3 (crd d1) (crd d2) (crd d) (c h) (c h2) (c m) = c (m4_G3 d1 d2 d h h2 m). Proof. unfold m4_G3. arith. Qed.
  Lemma m4_H_map d1 d2 h h2 h3 m : m4_H (crd d1) (crd d2) (c h) (c h2) (c h3) (c m) = c (m4_H d1 d2 h h2 h3 m). Proof. unfold m4_H. arith. Qed.
  Lemma m4_J_map it it2 h2 h3 it3 m : m4_J (cte it) (cde it2) (c h2) (c h3) (cde it3) (c m) = c (m4_J it it2 h2 h3 it3 m).
  Proof. unfold m4_J. cbv zeta. cbn [fst snd cde cte id1 id2]. destruct (_ || _); [reflexivity|]. arith. Qed.
  Lemma m4_L_map it d it3 m : m4_L (cte it) (crd d) (cde it3) (c m) = c (m4_L it d it3 m).
  Proof. unfold m4_L. cbv zeta. cbn [fst snd cde cte id1 id2]. destruct (_ || _); [reflexivity|]. arith. Qed.
  Lemma tri_find_map h i j : hg_tri_find (chg h) i j = option_map c (hg_tri_find h i j).
  Proof. unfold hg_tri_find, chg. cbn [trimap]. apply find_t. Qed.
  Lemma m4_G_map h ds it it2 r m : m4_G (chg h) (map cde ds) (cte it) (cde it2) (map cde r) (c m) = c (m4_G h ds it it2 r m).
  Proof.
    unfold m4_G. cbn [fst snd cde cte id1 id2 diag1 diag2 val]. destruct (_ || _); [reflexivity|]. cbv zeta.
    rewrite !tri_find_map.
    rewrite <- (for_each_map (m4_L it (snd it2)) (m4_L (cte it) (crd (snd it2))) cde) by (intros; apply m4_L_map). f_equal.
    destruct (hg_tri_find h (id1 it) (fst it2)) as [h2|]; destruct (hg_tri_find h (id2 it) (fst it2)) as [h3|]; cbn [option_map].
    - rewrite m4_G2_map, m4_G3_map, m4_H_map. apply for_each_map. intros. apply m4_J_map.
    - apply m4_G2_map.
    - apply m4_G3_map.
    - reflexivity.
  Qed.
  Lemma m4_I_map h it it2 m : m4_I (chg h) (cte it) (cte it2) (c m) = c (m4_I h it it2 m).
  Proof.
    unfold m4_I. cbn [id1 id2 cte val]. destruct (_ || _); [reflexivity|]. cbv zeta. rewrite !tri_find_map.
    destruct (hg_tri_find h (id1 it) (id1 it2)); destruct (hg_tri_find h (id2 it) (id2 it2));
    destruct (hg_tri_find h (id1 it) (id2 it2)); destruct (hg_tri_find h (id2 it) (id1 it2)); cbn [option_map]; push; reflexivity.
  Qed.
  Lemma m4_E_map h ds ts it m : m4_E (chg h) (map cde ds) (map cte ts) (cte it) (c m) = c (m4_E h ds ts it m).
  Proof.
    unfold m4_E. cbv zeta. cbn [diag1 diag2 val cte]. rewrite m4_E0_map.
    change (mkT (id1 it) (id2 it) (crd (diag1 it)) (crd (diag2 it)) (c (val it))) with (cte it).
    rewrite (for_tails_map (m4_G h ds it) (m4_G (chg h) (map cde ds) (cte it)) cde) by (intros; apply m4_G_map).
    apply for_each_map. intros; apply m4_I_map.
  Qed.
  Lemma m4_map h : compute_m4 (chg h) = omap c (compute_m4 h).
  Proof.
    unfold compute_m4. change (diagmap (chg h)) with (map ckd (diagmap h)).
    rewrite (omapM_map read_entry read_entry ckd cde) by apply read_entry_map. rewrite visits_map. unfold omap.
    destruct (omapM read_entry (diagmap h)) as [ds| | |]; cbn [bind]; try reflexivity.
    destruct (tri_visits h true) as [ts| | |]; cbn [bind]; try reflexivity.
    rewrite (omapM_map read_visit read_visit cv cte) by apply read_visit_map. unfold omap.
    destruct (omapM read_visit ts) as [ts'| | |]; cbn [bind]; try reflexivity. f_equal. unfold m4_loops. rewrite <- c_0.
    rewrite (for_each_map (m4_A ds ts') (m4_A (map cde ds) (map cte ts')) cde) by (intros; apply m4_A_map).
    apply (for_each_map (m4_E h ds ts') (m4_E (chg h) (map cde ds) (map cte ts')) cte). intros; apply m4_E_map.
  Qed.

  Lemma mom_map h n : compute_mom (chg h) n = omap c (compute_mom h n).
  Proof.
    unfold compute_mom. destruct (assert_ _); cbn [bind omap]; try reflexivity. unfold omap. cbn [bind].
    destruct (n =? 1)%Z; [cbn [bind]; f_equal; apply m1_map|]. destruct (n =? 2)%Z; [apply m2_map|]. destruct (n =? 3)%Z; [apply m3_map|].
    destruct (n =? 4)%Z; [apply m4_map|]. cbn [bind]. f_equal. symmetry. apply c_0.
  Qed.
  Lemma update_mom_map m1 m2 m3 i h : update_mom (c m1) (c m2) (c m3) i (chg h) = omap c (update_mom m1 m2 m3 i h).
  Proof.
    unfold update_mom. destruct (assert_ _); cbn [bind omap]; try reflexivity. rewrite mom_map. unfold omap.
    destruct (compute_mom h (i + 1)); cbn [bind]; try reflexivity. f_equal.
    destruct (i =? 0)%Z; [reflexivity|]. destruct (i =? 1)%Z; [now push|]. destruct (i =? 2)%Z; now push.
  Qed.
  Definition cu (x : ureal2 N) : ureal2 M := mkU2 (chg (u2hg x)) (c (u2mu x)).
  Lemma m_map x n : u2_m (cu x) n = omap c (u2_m x n).
  Proof.
    unfold u2_m. destruct (assert_ _); cbn [bind omap]; try reflexivity. change (u2hg (cu x)) with (chg (u2hg x)).
    rewrite <- c_0. rewrite update_mom_map. unfold omap at 1.
    destruct (update_mom n0 n0 n0 0 (u2hg x)) as [m1| | |]; cbn [bind]; try reflexivity.
    destruct (n <=? 1)%Z; [reflexivity|]. rewrite update_mom_map. unfold omap at 1.
    destruct (update_mom m1 n0 n0 1 (u2hg x)) as [m2| | |]; cbn [bind]; try reflexivity.
    destruct (n <=? 2)%Z; [reflexivity|]. rewrite update_mom_map. unfold omap at 1.
    destruct (update_mom m1 m2 n0 2 (u2hg x)) as [m3| | |]; cbn [bind]; try reflexivity.
    destruct (n <=? 3)%Z; [reflexivity|]. apply update_mom_map.
  Qed.
  Lemma n_map x p : u2_n p (cu x) = omap c (u2_n p x).
  Proof. unfold u2_n. rewrite m_map. unfold omap. destruct (u2_m x 1); cbn [bind]; try reflexivity. f_equal. unfold cu. cbn [u2mu]. now push. Qed.

  Lemma c2_A0_map p da db m : c2_A0 (moms_convert c p) (cd da) (cd db) (c m) = c (c2_A0 p da db m).
  Proof. unfold c2_A0. cbv zeta. cbn [cd dgrad dhh moms_convert v3 v4]. now push. Qed.
  Lemma c2_A_map a : forall b m, c2_A (map ckd a) (map ckd b) (c m) = omap c (c2_A a b m).
  Proof.
    induction a as [|[ia da] a IHa]; [now destruct b|]. induction b as [|[ib db] b IHb]; intro m; [reflexivity|].
    cbn [map ckd fst snd c2_A]. 
    match goal with |- bind ?e _ = _ => assert (E : e = omap c (if (ia =? ib)%Z then match dmom da with Some p => Ret (c2_A0 p da db m) | None => UB end else Ret m)) end.
    { destruct (ia =? ib)%Z; [|reflexivity]. unfold cd at 1. cbn [dmom]. destruct (dmom da); cbn [option_map]; [|reflexivity].
      unfold omap. cbn [bind]. now rewrite c2_A0_map. }
    rewrite E. clear E. unfold omap at 1.
    match goal with |- context [bind (bind ?e _)] => destruct e as [m'| | |] end; cbn [bind]; try reflexivity.
    destruct (ia <=? ib)%Z; [destruct (ib <=? ia)%Z; [apply IHa|apply (IHa ((ib, db) :: b))]|apply IHb].
  Qed.
  Lemma c2_B_map a : forall b m, c2_B (map cv a) (map cv b) (c m) = omap c (c2_B a b m).
  Proof.
    induction a as [|va a IHa]; [now destruct b|]. induction b as [|vb b IHb]; intro m; [reflexivity|].
    cbn [map]. rewrite !c2_B_cons. cbv zeta. change (vid (cv va)) with (vid va). change (vid (cv vb)) with (vid vb).
    change (vid1 (cv va)) with (vid1 va). change (vid1 (cv vb)) with (vid1 vb). change (vid2 (cv va)) with (vid2 va). change (vid2 (cv vb)) with (vid2 vb).
    destruct (assert_ (vid1 va <? vid2 va)%Z); cbn [bind omap]; try reflexivity.
    destruct (assert_ (vid1 vb <? vid2 vb)%Z); cbn [bind omap]; try reflexivity.
    match goal with |- context [if peqb _ _ then ?a else c m] => assert (E : (if peqb (vid va) (vid vb) then a else c m) =
      c (if peqb (vid va) (vid vb) then nadd m (nmul (nmul (nofZ (2 * 2)) (vval va)) (vval vb)) else m)) end.
    { destruct (peqb _ _); [|reflexivity]. cbn [cv vval]. now push. }
    rewrite E. unfold omap. cbn [bind].
    destruct (pleb (vid va) (vid vb)); [destruct (pleb (vid vb) (vid va)); [apply IHa|apply (IHa (vb :: b))]|apply IHb].
  Qed.
  Lemma c2_C_map ha hb m : c2_C (chg ha) (chg hb) (c m) = c (c2_C ha hb m).
  Proof.
    unfold c2_C. apply for_each_map. intros a m0. apply for_each_map. intros b m1. cbn [ckd fst snd cd dhh].
    destruct (negb _); [now push|reflexivity].
  Qed.
  Lemma c2_map ha hb : compute_c2 (chg ha) (chg hb) = omap c (compute_c2 ha hb).
  Proof.
    unfold compute_c2. change (diagmap (chg ha)) with (map ckd (diagmap ha)). change (diagmap (chg hb)) with (map ckd (diagmap hb)).
    rewrite <- c_0, c2_A_map, !visits_map. unfold omap.
    destruct (c2_A _ _ _) as [m| | |]; cbn [bind]; try reflexivity.
    destruct (tri_visits ha true) as [ta| | |]; cbn [bind]; try reflexivity.
    destruct (tri_visits hb true) as [tb| | |]; cbn [bind]; try reflexivity.
    rewrite c2_B_map. unfold omap. destruct (c2_B ta tb m) as [m'| | |]; cbn [bind]; try reflexivity. f_equal. apply c2_C_map.
  Qed.
  Lemma cov_map x y : u2_cov (cu x) (cu y) = omap c (u2_cov x y).
  Proof.
    unfold u2_cov. change (u2hg (cu x)) with (chg (u2hg x)). change (u2hg (cu y)) with (chg (u2hg y)).
    rewrite c2_map, !m_map. unfold omap. destruct (compute_c2 _ _); cbn [bind]; try reflexivity.
    destruct (u2_m x 1); cbn [bind]; try reflexivity. destruct (u2_m y 1); cbn [bind]; try reflexivity. f_equal. now push.
  Qed.
  Lemma indep_map x : u2_isindep (cu x) = u2_isindep x /\ u2_indepid (cu x) = u2_indepid x.
  Proof.
    unfold u2_indepid, u2_isindep, hg_size, cu, chg. cbn [u2hg diagmap]. rewrite map_length.
    split; [reflexivity|]. destruct (negb _); [reflexivity|]. destruct (_ =? 1)%nat; [|reflexivity].
    destruct (diagmap (u2hg x)) as [|[k d] l]; reflexivity.
  Qed.
End Conv.

Section ConvField.
  Context {N M : Num} (c : N -> M) (F : keeps_field c).
  Let K : keeps_ring c := proj1 F.
  Lemma c_div a b : neqb b n0 = false -> c (ndiv a b) = ndiv (c a) (c b). Proof. apply F. Qed.
  Lemma c_eqb a b : neqb (c a) (c b) = neqb a b. Proof. apply F. Qed.
  Lemma size_map x : hg_size (u2hg (cu c x)) = hg_size (u2hg x).
  Proof. unfold hg_size. cbn. now rewrite map_length. Qed.
  Lemma diag_get_map h i : hg_diag_get (chg c h) i = cd c (hg_diag_get h i).
  Proof.
    unfold hg_diag_get, mget, chg. cbn [diagmap]. rewrite find_d. destruct (mfind i (diagmap h)); [reflexivity|].
    unfold cd. cbn. now rewrite (c_0 c K).
  Qed.
  Lemma varies_one (x : ureal2 N) k d l : varies x -> diagmap (u2hg x) = (k, d) :: l -> hg_size (u2hg x) = 1%nat -> neqb (dgrad d) n0 = false.
  Proof.
    intros V E S. unfold hg_size in S. specialize (V k). unfold u2_indepid, u2_isindep, hg_size in V. rewrite S in V. rewrite E in *.
    specialize (V eq_refl). unfold hg_diag_get, mget in V. rewrite E in V. cbn [mfind] in V. rewrite kcmp_refl in V. exact V.
  Qed.
  Lemma grad_map z x : varies x -> u2_grad (cu c z) (cu c x) = omap c (u2_grad z x).
  Proof.
    intro V. unfold u2_grad. rewrite size_map. destruct (hg_size (u2hg x) =? 1)%nat eqn:S; cbn [negb]; [|reflexivity].
    change (diagmap (u2hg (cu c x))) with (map (ckd c) (diagmap (u2hg x))). apply Nat.eqb_eq in S.
    destruct (diagmap (u2hg x)) as [|[k d] l] eqn:E; [reflexivity|]. cbn [map ckd fst snd].
    change (u2hg (cu c z)) with (chg c (u2hg z)). rewrite diag_get_map. unfold omap. cbn [bind]. f_equal.
    cbn [cd dgrad]. rewrite c_div; [reflexivity|]. exact (varies_one x k d l V E S).
  Qed.
  Lemma hhess_get_map h i j : hg_hhess_get (chg c h) i j = omap c (hg_hhess_get h i j).
  Proof.
    unfold hg_hhess_get. destruct (negb _); [apply (tri_get_map c K)|]. rewrite diag_get_map. reflexivity.
  Qed.
  Lemma hess_map z x y : varies x -> varies y -> u2_hess (cu c z) (cu c x) (cu c y) = omap c (u2_hess z x y).
  Proof.
    intros Vx Vy. unfold u2_hess. rewrite !size_map.
    destruct (hg_size (u2hg x) =? 1)%nat eqn:Sx; cbn [negb orb]; [|reflexivity].
    destruct (hg_size (u2hg y) =? 1)%nat eqn:Sy; cbn [negb orb]; [|reflexivity].
    apply Nat.eqb_eq in Sx. apply Nat.eqb_eq in Sy.
    change (diagmap (u2hg (cu c x))) with (map (ckd c) (diagmap (u2hg x))). change (diagmap (u2hg (cu c y))) with (map (ckd c) (diagmap (u2hg y))).
    destruct (diagmap (u2hg x)) as [|[i dx] lx] eqn:Ex; [reflexivity|]. destruct (diagmap (u2hg y)) as [|[j dy] ly] eqn:Ey; [reflexivity|].
    assert (Nx := varies_one x i dx lx Vx Ex Sx). assert (Ny := varies_one y j dy ly Vy Ey Sy).
    assert (Nxy : neqb (nmul (dgrad dx) (dgrad dy)) n0 = false) by (apply F; assumption).
    assert (Nxx : neqb (nmul (dgrad dx) (dgrad dx)) n0 = false) by (apply F; assumption).
    cbn [map ckd fst snd cd dgrad dhh]. change (u2hg (cu c z)) with (chg c (u2hg z)). rewrite diag_get_map, !hhess_get_map.
    destruct (negb (i =? j)%Z).
    - unfold omap. destruct (hg_hhess_get (u2hg z) i j); cbn [bind]; try reflexivity. f_equal.
      rewrite c_div by exact Nxy. now rewrite !(c_mul c K), (c_ofZ c K).
    - cbv zeta. rewrite <- !(c_ofZ c K), <- !(c_mul c K), !c_eqb. destruct (_ || _); [reflexivity|].
      unfold omap. destruct (hg_hhess_get (u2hg z) i i); cbn [bind]; try reflexivity. f_equal.
      cbn [cd dgrad]. rewrite c_div by exact Nxx. rewrite (c_sub c K), !(c_mul c K), (c_div _ _ Nx). reflexivity.
  Qed.
End ConvField.

Lemma convert_cu {N M : Num} (c : N -> M) x : hg_ok (u2hg x) -> u2_convert c x = cu c x.
Proof. intro OK. unfold u2_convert, cu. f_equal. now apply convert_chg. Qed.

Lemma C48_cast_keeps_values_proof : forall (N M : Num) (c : N -> M), keeps_ring c ->
  forall (eig : list (list N) -> option (list N)), nltb (n0 : N) n0 = false ->
  forall cs, legal2 cs -> forall w, run2 eig w2_init cs = Ret w -> forall u v,
  let x := w2_var w u in let y := w2_var w v in
  u2_first_order_n (u2_convert c x) = c (u2_first_order_n x) /\
  u2_isindep (u2_convert c x) = u2_isindep x /\ u2_indepid (u2_convert c x) = u2_indepid x /\
  (forall n, u2_m (u2_convert c x) n = omap c (u2_m x n)) /\
  (forall mode, u2_n mode (u2_convert c x) = omap c (u2_n mode x)) /\
  u2_cov (u2_convert c x) (u2_convert c y) = omap c (u2_cov x y) /\
  (forall i, dgrad (hg_diag_get (u2hg (u2_convert c x)) i) = c (dgrad (hg_diag_get (u2hg x) i))) /\
  (forall i j, hg_hhess_get (u2hg (u2_convert c x)) i j = omap c (hg_hhess_get (u2hg x) i j)).
Proof.
  intros N M c K eig Z0 cs L w E u v x y. destruct (legal2_run Z0 eig cs L) as (env & w' & E' & [_ W] & _).
  assert (w' = w) by congruence. subst w'. destruct (W u) as [OKx _]. destruct (W v) as [OKy _]. fold x in OKx. fold y in OKy.
  rewrite (convert_cu c x OKx), (convert_cu c y OKy).
  split; [reflexivity|]. destruct (indep_map c x) as [I1 I2]. split; [exact I1|]. split; [exact I2|].
  split; [intro n; apply (m_map c K)|]. split; [intro n; apply (n_map c K)|]. split; [apply (cov_map c K)|].
  split.
  - intro i. unfold hg_diag_get, mget, cu, chg. cbn [u2hg diagmap]. rewrite find_d. destruct (mfind i (diagmap (u2hg x))); [reflexivity|].
    cbn. symmetry. apply (c_0 c K).
  - intros i j. unfold cu. cbn [u2hg]. unfold hg_hhess_get. destruct (negb _); [apply (tri_get_map c K)|].
    unfold omap. cbn [bind]. f_equal. unfold hg_diag_get, mget, chg. cbn [diagmap]. rewrite find_d. destruct (mfind i (diagmap (u2hg x))); [reflexivity|].
    cbn. symmetry. apply (c_0 c K).
Qed.
Lemma C48_cast_keeps_derivatives_proof : forall (N M : Num) (c : N -> M), keeps_field c ->
  forall (eig : list (list N) -> option (list N)), nltb (n0 : N) n0 = false ->
  forall cs, legal2 cs -> forall w, run2 eig w2_init cs = Ret w -> forall t u v,
  let z := w2_var w t in let x := w2_var w u in let y := w2_var w v in varies x -> varies y ->
  u2_grad (u2_convert c z) (u2_convert c x) = omap c (u2_grad z x) /\
  u2_hess (u2_convert c z) (u2_convert c x) (u2_convert c y) = omap c (u2_hess z x y).
Proof.
  intros N M c K eig Z0 cs L w E t u v z x y Vx Vy. destruct (legal2_run Z0 eig cs L) as (env & w' & E' & [_ W] & _).
  assert (w' = w) by congruence. subst w'. destruct (W t) as [OKz _]. destruct (W u) as [OKx _]. destruct (W v) as [OKy _].
  fold z in OKz. fold x in OKx. fold y in OKy. rewrite !convert_cu by assumption.
  split; [now apply grad_map|now apply hess_map].
Qed.
Lemma C48_cast_same_type_proof : forall (N : Num) (eig : list (list N) -> option (list N)), nltb (n0 : N) n0 = false ->
  forall cs, legal2 cs -> forall w, run2 eig w2_init cs = Ret w -> forall v, u2_convert (fun a : N => a) (w2_var w v) = w2_var w v.
Proof.
  intros N eig Z0 cs L w E v. destruct (legal2_run Z0 eig cs L) as (env & w' & E' & [_ W] & _).
  assert (w' = w) by congruence. subst w'. destruct (W v) as [OK _]. rewrite (convert_cu _ _ OK).
  destruct (w2_var w v) as [[D T] mu]. unfold cu, chg. cbn [u2hg u2mu diagmap trimap]. f_equal. f_equal.
  - rewrite <- (map_id D) at 2. apply map_ext. intros [k [g h m]]. unfold ckd, cd. cbn. do 2 f_equal.
    destruct m as [[]|]; reflexivity.
  - rewrite <- (map_id T) at 2. apply map_ext. now intros [k t].
Qed.
Lemma C48_cast_roundtrip_proof : forall (N M : Num) (c : N -> M) (d : M -> N), (forall a, d (c a) = a) ->
  forall (eig : list (list N) -> option (list N)), nltb (n0 : N) n0 = false ->
  forall cs, legal2 cs -> forall w, run2 eig w2_init cs = Ret w -> forall v, u2_convert d (u2_convert c (w2_var w v)) = w2_var w v.
Proof.
  intros N M c d DC eig Z0 cs L w E v. destruct (legal2_run Z0 eig cs L) as (env & w' & E' & [_ W] & _).
  assert (w' = w) by congruence. subst w'. destruct (W v) as [OK _]. rewrite (convert_cu _ _ OK).
  destruct OK as (SD & ST & _). destruct (w2_var w v) as [[D T] mu]. cbn [u2hg diagmap trimap] in SD, ST.
  unfold u2_convert, cu, chg, hg_convert. cbn [u2hg u2mu diagmap trimap]. f_equal; [f_equal|apply DC].
  - assert (S1 : msorted (map (ckd c) D)) by (unfold msorted; rewrite keys_map; [exact SD|reflexivity]).
    transitivity (map (ckd d) (map (ckd c) D)).
    { apply (fold_mset_map (fun kv => ckd d kv) (map (ckd c) D) []). unfold msorted. cbn [app]. rewrite keys_map; [exact S1|reflexivity]. }
    rewrite map_map. rewrite <- (map_id D) at 2. apply map_ext. intros [k [g h m]]. unfold ckd, cd. cbn. rewrite !DC. do 2 f_equal.
    destruct m as [[]|]; [|reflexivity]. cbn. unfold moms_convert. cbn. now rewrite !DC.
  - assert (S1 : msorted (map (ckt c) T)) by (unfold msorted; rewrite keys_map; [exact ST|reflexivity]).
    transitivity (map (ckt d) (map (ckt c) T)).
    { apply (fold_mset_map (fun kv => ckt d kv) (map (ckt c) T) []). unfold msorted. cbn [app]. rewrite keys_map; [exact S1|reflexivity]. }
    rewrite map_map. rewrite <- (map_id T) at 2. apply map_ext. intros [k t]. unfold ckt. cbn. now rewrite DC.
Qed.

From Coq Require Import Reals Lra.
From Verif Require Import URealR.
Lemma mode_arith (a m : R) : (a + IZR 1 * m = a + m /\ a + IZR (-1) * m = a - m)%R.
Proof. split; ring. Qed.
Lemma C48_mode_only_changes_sign_proof : forall eig (w : world2 RN), reachable2 eig w -> forall v,
  let x := w2_var w v in let cast := u2_convert (N := RN) (M := RN) (fun a => a) in
  exists m1 : R, u2_m x 1 = Ret m1 /\
    u2_n PropMean (cast x) = Ret (u2_first_order_n x + m1)%R /\
    u2_n PropEst (cast x) = Ret (u2_first_order_n x - m1)%R.
Proof.
  intros eig w HR v x cast. destruct (C25_queries_return_proof RN eig Rltb_00 w HR v v v) as [Q _].
  destruct (Q 1%Z ltac:(lia)) as [m1 E]. fold x in E. exists m1. split; [exact E|].
  assert (C : cast x = x). { destruct HR as (cs & L & Er). exact (C48_cast_same_type_proof RN eig Rltb_00 cs L w Er v). }
  rewrite C. unfold u2_n. rewrite E. cbn [bind propsign]. destruct (mode_arith (u2mu x) m1) as [A B].
  split; refine (f_equal (@Ret R) _); assumption.
Qed.

(** ** The cast from exact fractions to reals *)
From Coq Require Import QArith Qreals.
Lemma Q2R_ring : keeps_ring (N := QN) (M := RN) Q2R.
Proof.
  repeat apply conj.
  - unfold Q2R; cbn; lra.
  - intro z. unfold Q2R. cbn. field.
  - intros a b. etransitivity; [apply Qeq_eqR, Qred_correct|apply Q2R_plus].
  - intros a b. etransitivity; [apply Qeq_eqR, Qred_correct|apply Q2R_minus].
  - intros a b. etransitivity; [apply Qeq_eqR, Qred_correct|apply Q2R_mult].
Qed.
Lemma Q2R_field : keeps_field (N := QN) (M := RN) Q2R.
Proof.
  split; [exact Q2R_ring|]. repeat apply conj.
  - intros a b H. cbn in H. apply Qeq_bool_neq in H. etransitivity; [apply Qeq_eqR, Qred_correct|]. now apply Q2R_div.
  - intros a b. cbn. unfold Reqb. destruct (Qeq_bool a b) eqn:E.
    + apply Qeq_bool_iff in E. apply Qeq_eqR in E. destruct (Req_EM_T (Q2R a) (Q2R b)); congruence.
    + apply Qeq_bool_neq in E. destruct (Req_EM_T (Q2R a) (Q2R b)) as [e|]; [|reflexivity]. now apply eqR_Qeq in e.
  - intros a b A B. apply Qeq_bool_neq in A. apply Qeq_bool_neq in B. change (Qeq_bool (Qred (a * b)) 0 = false).
    destruct (Qeq_bool (Qred (a * b)) 0) eqn:E; [|reflexivity]. exfalso. apply Qeq_bool_iff in E. rewrite Qred_correct in E.
    destruct (Qmult_integral _ _ E); contradiction.
Qed.
