(** * IeeeProofs6: the second order class on doubles, linear programs (C58) *)

From Coq Require Import List ZArith Reals Bool Lra Lia Psatz.
From Flocq Require Import Core BinarySingleNaN.
From Verif Require Import Base Num Map UReal World HessGrad Moments CheckMoments UReal2 HessProofs U2Facts.
From Verif Require Import SpecObs URealFacts URealProofs URealProofs2 World2 U2World U2Ret SpecU2Run Ieee IeeeFacts SpecIeee IeeeProofs IeeeProofs2.
Import ListNotations.

(** zero of either sign, or NaN *)
Definition zn (a : double) : Prop := match a with B754_zero _ | B754_nan => True | _ => False end.
Lemma zn_mul_l a t : zn a -> zn (dmul a t).
Proof. destruct a as [s|s| |s m e H], t as [s'|s'| |s' m' e' H']; cbn; tauto. Qed.
Lemma zn_mul_r t a : zn a -> zn (dmul t a).
Proof. rewrite dmul_comm. apply zn_mul_l. Qed.
Lemma zn_add a b : zn a -> zn b -> zn (dadd a b).
Proof. destruct a as [[|]|s| |s m e H], b as [[|]|s'| |s' m' e' H']; cbn; tauto. Qed.
Lemma zn_0 : zn dzero. Proof. exact I. Qed.
Lemma nonneg_add_zn m a : nonneg m -> zn a -> nonneg (dadd m a).
Proof. intros Hm Ha. destruct a as [s'|s'| |s' m' e' H']; cbn in Ha; try tauto; destruct m as [[|]|[|]| |[|] mm e H]; try exact Hm; try reflexivity; destruct s'; reflexivity. Qed.
Lemma nonneg_sub_zn m a : nonneg m -> zn a -> nonneg (dsub m a).
Proof. intros Hm Ha. destruct a as [s'|s'| |s' m' e' H']; cbn in Ha; try tauto; destruct m as [[|]|[|]| |[|] mm e H]; try exact Hm; try reflexivity; destruct s'; reflexivity. Qed.

Definition lin (h : hessgrad DN) : Prop :=
  (forall i d, In (i, d) (diagmap h) -> zn (dhh d)) /\
  (forall i j x, In ((i, j), x) (trimap h) -> zn x).

Lemma lin_get h : hg_ok h -> lin h -> forall i j, zn (mget (n0 : DN) (i, j) (trimap h)).
Proof.
  intros OK [_ L] i j. unfold mget. destruct (mfind (i, j) (trimap h)) as [x|] eqn:E; [|exact I]. apply mfind_In in E. now apply (L i j).
Qed.

(** the accumulator of the second moment stays non-negative *)
Lemma m2_A_lin (it : dentry DN) (m : DN) : zn (H (snd it)) -> nonneg m -> nonneg (m2_A (N := DN) it m).
Proof.
  intros Z Hm. unfold m2_A. cbn [nadd nmul DN].
  apply nonneg_add_zn; [|apply zn_mul_l, zn_mul_l, Z]. apply nonneg_add_zn; [|apply zn_mul_l, zn_mul_r, Z].
  apply nonneg_add; [exact Hm|apply nonneg_square].
Qed.
Lemma m2_B_lin (it : tentry DN) (m : DN) : zn (H (diag1 it)) -> zn (val it) -> nonneg m -> nonneg (m2_B (N := DN) it m).
Proof.
  intros Z1 Zv Hm. unfold m2_B. cbn [nadd nmul DN]. apply nonneg_add_zn; [exact Hm|]. apply zn_mul_r.
  apply zn_add; [apply zn_mul_l, Z1|apply zn_mul_r, Zv].
Qed.
Lemma for_each_inv {A S : Type} (f : A -> S -> S) (P : S -> Prop) l : forall m, (forall a m, In a l -> P m -> P (f a m)) -> P m -> P (for_each f l m).
Proof.
  unfold for_each. induction l as [|a l IH]; intros m Hf Hm; [exact Hm|]. cbn [fold_left]. apply IH; [intros b n Hb; apply Hf; now right|].
  apply Hf; [now left|exact Hm].
Qed.
Lemma Forall2_In_r {A B : Type} (P : A -> B -> Prop) l m b : Forall2 P l m -> In b m -> exists a, In a l /\ P a b.
Proof. induction 1 as [|x y l m Hxy F IH]; intros []; [subst; exists x; split; [now left|exact Hxy]|]. destruct (IH H) as (a & Ha & Hp). exists a. split; [now right|exact Hp]. Qed.
Lemma compute_m2_lin h : hg_ok h -> lin h -> exists m : DN, compute_m2 h = Ret m /\ nonneg m.
Proof.
  intros OK L. unfold compute_m2. destruct (read_entries h OK) as (ds & -> & Fd). cbn [bind].
  destruct (read_visits h false OK) as (ts0 & ts & -> & E & Ft & E0). cbn [bind]. rewrite E. cbn [bind]. eexists. split; [reflexivity|].
  unfold m2_loops. apply for_each_inv.
  - intros t m Ht Hm. destruct (Forall2_In_r _ _ _ _ Ft Ht) as (v & Hv & Ev).
    unfold read_visit, read_diag in Ev. destruct (dmom (vd1 v)); cbn [bind] in Ev; [|discriminate].
    destruct (dmom (vd2 v)); cbn [bind] in Ev; [|discriminate]. injection Ev as <-. apply m2_B_lin; cbn [diag1 val H]; [| |exact Hm].
    + subst ts0. apply tpairs_In in Hv as [Hv _]. exact (proj1 L _ _ Hv).
    + subst ts0. assert (Q : forall d, In v (tpairs (trimap h) d) -> zn (vval v)).
      { induction d as [|[i di] d IH]; cbn [tpairs]; [intros []|]. intro Hi. apply in_app_iff in Hi as [Hi|Hi]; [|auto].
        apply in_map_iff in Hi as (jd & <- & _). cbn [vval]. now apply lin_get. }
      now apply (Q (diagmap h)).
  - apply for_each_inv; [|reflexivity]. intros t m Ht Hm. destruct (Forall2_In_r _ _ _ _ Fd Ht) as ([k d] & Hv & Ev).
    unfold read_entry, read_diag in Ev. cbn [fst snd] in Ev. destruct (dmom d); cbn [bind] in Ev; [|discriminate]. injection Ev as <-.
    apply m2_A_lin; [|exact Hm]. cbn [snd H]. exact (proj1 L _ _ Hv).
Qed.
Lemma compute_m1_lin h : lin h -> zn (compute_m1 (N := DN) h).
Proof.
  intros [L _]. unfold compute_m1. apply for_each_inv; [|exact I]. intros [k d] m Hi Hm. cbn [snd nadd DN]. apply zn_add; [exact Hm|exact (L _ _ Hi)].
Qed.
Lemma sqrt_nan a : nonneg a -> is_nan (dsqrt a) = is_nan a.
Proof.
  destruct a as [s|[|]| |[|] m e Hm]; try reflexivity; try discriminate. intros _.
  destruct (Bsqrt_correct 53 1024 prec53 emax1024 mode_NE (B754_finite false m e Hm)) as (_ & H1 & _).
  unfold dsqrt. cbn [is_nan]. destruct (Bsqrt mode_NE (B754_finite false m e Hm)); try reflexivity. discriminate H1.
Qed.
Lemma var_lin (x : ureal2 DN) : hg_ok (u2hg x) -> lin (u2hg x) ->
  exists y : DN, u2_var x = Ret y /\ not_negative y /\ u2_s x = Ret (dsqrt y : DN) /\ is_nan (dsqrt y) = is_nan y.
Proof.
  intros OK L. destruct (compute_m2_lin _ OK L) as (m & E & Hm). assert (Z := compute_m1_lin _ L).
  set (m1 := compute_m1 (N := DN) (u2hg x)) in *.
  assert (V : u2_m x 2 = Ret (nsub m (nmul m1 m1))).
  { unfold u2_m. cbn [Z.leb Z.compare andb assert_ bind Pos.compare Pos.compare_cont]. unfold update_mom.
    cbn [Z.leb Z.compare andb assert_ bind Pos.compare Pos.compare_cont Z.add Pos.add Pos.succ Z.eqb Pos.eqb].
    unfold compute_mom. cbn [Z.leb Z.compare andb assert_ bind Pos.compare Pos.compare_cont Z.add Pos.add Pos.succ Z.eqb Pos.eqb].
    rewrite E. reflexivity. }
  assert (NN : nonneg (dsub m (dmul m1 m1))) by (apply nonneg_sub_zn; [exact Hm|apply zn_mul_l, Z]).
  exists (dsub m (dmul m1 m1) : DN). split; [exact V|]. split; [exact NN|]. split; [|now apply sqrt_nan].
  unfold u2_s. rewrite V. reflexivity.
Qed.

(** ** Operations *)
Lemma zn_cell_hh hdd g f h : hdd = dzero -> zn h -> zn (dadd (dmul (dmul hdd g) g) (dmul f h)).
Proof. intros -> Z. apply zn_add; [apply zn_mul_l, zn_mul_l, I|apply zn_mul_r, Z]. Qed.
Lemma empty_tri (h : hessgrad DN) : hg_ok h -> diagmap h = [] -> trimap h = [].
Proof.
  intros (_ & _ & K & _) E. destruct (trimap h) as [|[[i j] x] t]; [reflexivity|]. destruct (K i j (or_introl eq_refl)) as (_ & [] & _) || idtac.
  destruct (K i j (or_introl eq_refl)) as (_ & Hi & _). rewrite E in Hi. destruct Hi.
Qed.
Lemma exact_visits (h : hessgrad DN) skip vs : hg_ok h -> skip = true \/ diagmap h = [] -> hess_visits h skip = Ret vs -> visits_exact h vs.
Proof.
  intros OK C E. destruct (visits_facts h skip OK) as (vs' & E' & _ & V & _ & X). rewrite E in E'. injection E' as <-.
  destruct C as [C|C]; [exact (X C)|]. intros i j NE. rewrite (empty_tri h OK C). cbn [mfind].
  destruct vs as [|v vs]; [reflexivity|]. destruct (V v (or_introl eq_refl)) as [Hv _]. rewrite C in Hv. destruct Hv.
Qed.
Lemma lin_find h i d : lin h -> mfind i (diagmap h) = Some d -> zn (dhh d).
Proof. intros [L _] E. apply mfind_In in E. exact (L _ _ E). Qed.
Lemma lin_tfind h i j x : lin h -> mfind (i, j) (trimap h) = Some x -> zn x.
Proof. intros [_ L] E. apply mfind_In in E. exact (L _ _ _ E). Qed.
Lemma lin_binary (x y : ureal2 DN) (f fx fy fxx fyy fxy : DN) : hg_ok (u2hg x) -> hg_ok (u2hg y) -> kbelow (u2hg x) -> kbelow (u2hg y) ->
  lin (u2hg x) -> lin (u2hg y) ->
  ndiv fxx (nofZ 2) = (dzero : DN) -> (ndiv fyy (nofZ 2) = (dzero : DN) \/ diagmap (u2hg y) = []) ->
  (neqb (ndiv fxy (nofZ 2)) n0 = true \/ diagmap (u2hg x) = [] \/ diagmap (u2hg y) = []) ->
  exists z, u2_binary x y f fx fy fxx fyy fxy = Ret z /\ lin (u2hg z).
Proof.
  intros OKx OKy Kx Ky Lx Ly Hxx Hyy Hxy.
  destruct (binary_result x y f fx fy fxx fyy fxy OKx OKy Kx Ky) as (r & E & OK & r0 & OK0 & HD & HT & HC).
  exists (mkU2 r f). split; [exact E|]. cbn [u2hg].
  set (hxx := ndiv fxx (nofZ 2)) in *. set (hyy := ndiv fyy (nofZ 2)) in *. set (hxy := ndiv fxy (nofZ 2)) in *.
  assert (L0d : forall i d, mfind i (diagmap r0) = Some d -> zn (dhh d)).
  { intros i d Hd. rewrite HD in Hd. unfold mcell in Hd.
    destruct (mfind i (diagmap (u2hg x))) as [a|] eqn:Ea; destruct (mfind i (diagmap (u2hg y))) as [b|] eqn:Eb; [| | |discriminate]; injection Hd as <-.
    - destruct Hyy as [Hyy|Hyy]; [|rewrite Hyy in Eb; discriminate Eb].
      cbn [cellYn cellX dhh dgrad]. cbn [nadd nmul DN]. apply zn_add; [apply zn_add|].
      + apply zn_cell_hh; [exact Hxx|now apply (lin_find _ i _ Lx)].
      + rewrite Hyy. apply zn_mul_l, zn_mul_l, I.
      + apply zn_mul_r. now apply (lin_find _ i _ Ly).
    - cbn [cellX dhh]. apply zn_cell_hh; [exact Hxx|now apply (lin_find _ i _ Lx)].
    - destruct Hyy as [Hyy|Hyy]; [|rewrite Hyy in Eb; discriminate Eb].
      cbn [cellYf dhh]. cbn [nadd nmul n0 DN]. apply zn_add; [apply zn_add; [exact I|]|].
      + rewrite Hyy. apply zn_mul_l, zn_mul_l, I.
      + apply zn_mul_r. now apply (lin_find _ i _ Ly). }
  assert (L0t : forall i j t, mfind (i, j) (trimap r0) = Some t -> zn t).
  { intros i j t Ht. destruct (visits_of_hg (u2hg x) (neqb hxx n0) OKx) as (xs & Ex & _ & Xx).
    destruct (visits_of_hg (u2hg y) (neqb hyy n0) OKy) as (ys & Ey & _ & Xy).
    assert (Vx : visits_exact (u2hg x) xs). { apply Xx. rewrite Hxx. reflexivity. }
    assert (Vy : visits_exact (u2hg y) ys).
    { apply (exact_visits _ _ _ OKy) with (2 := Ey). destruct Hyy as [Hyy|Hyy]; [left|now right]. rewrite Hyy. reflexivity. }
    assert (NE : i <> j). { apply mfind_In in Ht. apply (in_map fst) in Ht. apply OK0 in Ht. lia. }
    rewrite (HT xs ys Ex Ey Vx Vy i j NE) in Ht. unfold mtri in Ht.
    destruct (mfind (i, j) (trimap (u2hg x))) as [a|] eqn:Ea; destruct (mfind (i, j) (trimap (u2hg y))) as [b|] eqn:Eb; [| | |discriminate]; injection Ht as <-.
    - destruct Hyy as [Hyy|Hyy]; [|rewrite (empty_tri _ OKy Hyy) in Eb; discriminate Eb].
      unfold tY, tX. cbn [nadd nmul DN]. rewrite Hxx, Hyy. apply zn_add; [apply zn_add|]; [apply zn_add| |].
      + apply zn_mul_l, zn_mul_l, I.
      + apply zn_mul_r. now apply (lin_tfind _ i j _ Lx).
      + apply zn_mul_l, zn_mul_l, I.
      + apply zn_mul_r. now apply (lin_tfind _ i j _ Ly).
    - unfold tX. cbn [nadd nmul DN]. rewrite Hxx. apply zn_add; [apply zn_mul_l, zn_mul_l, I|]. apply zn_mul_r. now apply (lin_tfind _ i j _ Lx).
    - destruct Hyy as [Hyy|Hyy]; [|rewrite (empty_tri _ OKy Hyy) in Eb; discriminate Eb].
      unfold tY. cbn [nadd nmul n0 DN]. rewrite Hyy. apply zn_add; [apply (zn_add dzero); [exact I|apply zn_mul_l, zn_mul_l; exact I]|]. apply zn_mul_r. now apply (lin_tfind _ i j _ Ly). }
  assert (Done0 : lin r0).
  { split; [intros i d Hd; apply (L0d i); now apply In_mfind; [apply OK0|]|intros i j t Ht; apply (L0t i j); now apply In_mfind; [apply OK0|]]. }
  destruct (neqb hxy n0) eqn:Eh; [now rewrite HC|].
  assert (Em : diagmap (u2hg x) = [] \/ diagmap (u2hg y) = []) by (destruct Hxy as [Hxy|Hxy]; [congruence|exact Hxy]).
  destruct HC as [HD' HT']. split.
  - intros i d Hd. apply In_mfind in Hd; [|apply OK]. rewrite HD' in Hd. apply (L0d i).
    destruct Em as [Em|Em]; rewrite Em in Hd; cbn [mfind] in Hd; [exact Hd|]. destruct (mfind i (diagmap (u2hg x))); exact Hd.
  - intros i j t Ht. assert (Lt : (i < j)%Z) by (apply (in_map fst) in Ht; now apply OK in Ht).
    apply In_mfind in Ht; [|apply OK]. specialize (HT' i j Lt). unfold mget in HT' at 1. rewrite Ht in HT'.
    assert (E0 : t = mget (n0 : DN) (i, j) (trimap r0)).
    { rewrite HT'. destruct Em as [Em|Em]; rewrite Em; cbn [mfind]; [reflexivity|]. destruct (mfind i (diagmap (u2hg x))), (mfind j (diagmap (u2hg x))); reflexivity. }
    rewrite E0. now apply lin_get.
Qed.
Lemma lin_unary (x : ureal2 DN) f f1 : hg_ok (u2hg x) -> lin (u2hg x) ->
  exists z, u2_unary x f f1 (nofZ 0) = Ret z /\ lin (u2hg z).
Proof.
  intros OKx Lx. destruct (unary_result x f f1 (nofZ 0) OKx) as (r & E & OK & HD & HT). exists (mkU2 r f). split; [exact E|]. cbn [u2hg].
  assert (Z : ndiv (n := DN) (nofZ 0) (nofZ 2) = dzero) by reflexivity. rewrite Z in *.
  split.
  - intros i d Hd. apply In_mfind in Hd; [|apply OK]. rewrite HD in Hd. apply option_map_some in Hd as (d' & Hd & ->).
    cbn [cellX dhh]. apply zn_cell_hh; [reflexivity|now apply (lin_find _ i _ Lx)].
  - intros i j t Ht. assert (NE : i <> j) by (apply (in_map fst) in Ht; apply OK in Ht; lia).
    apply In_mfind in Ht; [|apply OK].
    destruct (visits_of_hg (u2hg x) (neqb (n := DN) dzero n0) OKx) as (xs & Ex & _ & Xx).
    rewrite (HT xs Ex (Xx eq_refl) i j NE) in Ht. apply option_map_some in Ht as (t' & Ht & ->). cbn [nadd nmul DN].
    apply zn_add; [apply zn_mul_l, zn_mul_l, I|]. apply zn_mul_r. now apply (lin_tfind _ i j _ Lx).
Qed.

(** ** Histories *)
Definition linw (K : nat -> bool) (w : world2 DN) : Prop :=
  forall v, lin (u2hg (w2_var w v)) /\ (K v = true -> diagmap (u2hg (w2_var w v)) = []).
Lemma lin_empty : lin hg_empty. Proof. split; [intros i d0 []|intros i j x []]. Qed.
Lemma lin_fresh id g m : lin (hg_diag id (fun _ => mkD g (n0 : DN) (Some m)) hg_empty).
Proof. split; [|intros i j x []]. intros i e [[= <- <-]|[]]. exact I. Qed.
Lemma linw_upd K w1 (w : world2 DN) v (x : ureal2 DN) : linw K w -> lin (u2hg x) -> (K v = true -> diagmap (u2hg x) = []) ->
  linw K (mkW2 w1 (upd2 (w2_var w) v x)).
Proof. intros L Lx Hx u. cbn [w2_var]. unfold upd2. destruct (Nat.eqb_spec u v); [subst; auto|apply L]. Qed.
Lemma half0 : ndiv (n := DN) (nofZ 0) (nofZ 2) = (dzero : DN). Proof. reflexivity. Qed.
Lemma lin_exec eig K env (w : world2 DN) c : wwf2 env w -> thr_ok c -> (w2_last w + (if is_new2 c then 1 else 0) < maxid)%Z ->
  linear2 K c -> linw K w -> linw K (fst (exec2 eig w c)).
Proof.
  intros [W1 W2] T B HL L. assert (P := proj1 W1). fold (w2_last w) in P.
  assert (B' : (w2_last w < maxid)%Z) by (destruct (is_new2 c); lia).
  assert (OK : forall v, hg_ok (u2hg (w2_var w v))) by (intro v; exact (proj1 (W2 v))).
  assert (KB : forall v, kbelow (u2hg (w2_var w v))) by (intro v; exact (wf2_below _ _ _ (W2 v) B')).
  assert (New : forall v r, K v = false -> new_spec (w2_last w) r -> linw K (fst (let '(last, o) := r in assign2 (set_last w last) v o))).
  { intros v r Kv [[e ->]|(n & g & m & ->)]; cbn [assign2 fst]; [exact L|].
    apply (linw_upd K _ w); [exact L|apply lin_fresh|congruence]. }
  assert (Bin : forall v x y f fx fy fxx fyy fxy, K v = false -> ndiv fxx (nofZ 2) = (dzero : DN) ->
    (ndiv fyy (nofZ 2) = (dzero : DN) \/ diagmap (u2hg (w2_var w y)) = []) ->
    (neqb (n := DN) (ndiv fxy (nofZ 2)) n0 = true \/ diagmap (u2hg (w2_var w x)) = [] \/ diagmap (u2hg (w2_var w y)) = []) ->
    linw K (fst (assign2 w v (u2_binary (w2_var w x) (w2_var w y) f fx fy fxx fyy fxy)))).
  { intros v x y f fx fy fxx fyy fxy Kv H1 H2 H3.
    destruct (lin_binary (w2_var w x) (w2_var w y) f fx fy fxx fyy fxy (OK x) (OK y) (KB x) (KB y) (proj1 (L x)) (proj1 (L y)) H1 H2 H3) as (z & -> & Lz).
    cbn [assign2 fst]. apply linw_upd; [exact L|exact Lz|congruence]. }
  destruct c; cbn [exec2 linear2] in *; try (now exfalso).
  - destruct (exec (w2_w w) c) as [w1 o]. cbn [fst]. exact L.
  - apply New; [exact HL|]. apply new2_ok; [lia|exact T].
  - apply New; [exact HL|]. apply new2_std_ok; [lia|exact T].
  - cbn [assign2 fst]. apply linw_upd; [exact L|exact lin_empty|reflexivity].
  - cbn [assign2 fst]. apply linw_upd; [exact L|exact lin_empty|reflexivity].
  - cbn [assign2 fst]. apply linw_upd; [exact L|apply L|]. intro Kv. apply L. auto.
  - unfold u2_neg. destruct (lin_unary (w2_var w x) (nopp (u2mu (w2_var w x))) (nofZ (-1)) (OK x) (proj1 (L x))) as (z & -> & Lz).
    cbn [assign2 fst]. apply linw_upd; [exact L|exact Lz|congruence].
  - apply Bin; [exact HL|exact half0|left; exact half0|left; reflexivity].
  - apply Bin; [exact HL|exact half0|left; exact half0|left; reflexivity].
  - destruct HL as [Kv Kxy]. apply Bin; [exact Kv|exact half0|left; exact half0|right]. destruct Kxy; [left|right]; now apply L.
  - destruct HL as [Kv Ky]. apply Bin; [exact Kv|exact half0|right|right; right]; now apply L.
Qed.
Lemma lin_run eig K cs : forall env (w w' : world2 DN), wwf2 env w -> List.Forall nary_ok2 cs -> List.Forall thr_ok cs ->
  (w2_last w + Z.of_nat (count_new2 cs) < maxid)%Z -> List.Forall (linear2 K) cs -> linw K w -> run2 eig w cs = Ret w' -> linw K w'.
Proof.
  induction cs as [|c cs IH]; intros env w w' W F T B FL L E.
  - cbn [run2] in E. now injection E as <-.
  - inversion F as [|? ? Fc Fcs]; subst. inversion T as [|? ? Tc Tcs]; subst. inversion FL as [|? ? Lc Lcs]; subst.
    rewrite count_new2_cons in B.
    destruct (gen_exec2 DN_lt00 eig env w c W Fc Tc) as (env1 & W1 & _ & L1 & O & _); [destruct (is_new2 c); lia|].
    assert (L' := lin_exec eig K env w c W Tc ltac:(destruct (is_new2 c); lia) Lc L).
    cbn [run2] in E. destruct (exec2 eig w c) as [w1 o]. cbn [fst snd] in *.
    apply (IH env1 w1 w' W1 Fcs Tcs); [lia|exact Lcs|exact L'|]. destruct O as [-> | [e ->]]; exact E.
Qed.
Lemma C58_linear_partial_proof : forall eig K cs, legal2 cs -> List.Forall (linear2 K) cs ->
  exists w, run2 eig w2_init cs = Ret w /\ forall v, exists y : DN, u2_var (w2_var w v) = Ret y /\ not_negative y /\
    exists s : DN, u2_s (w2_var w v) = Ret s /\ s = dsqrt y /\ is_nan (s : double) = is_nan (y : double).
Proof.
  intros eig K cs (F & T & C) FL. destruct (gen_run2_init DN_lt00 eig cs F T C) as (env & w & E & [_ W] & _ & _).
  exists w. split; [exact E|]. intro v.
  assert (L : linw K w).
  { apply (lin_run eig K cs (fun _ => mkM n0 n0 n0 n0 n0 n0) w2_init w (wwf2_init _) F T); [apply max_new_lt in C; cbn; lia|exact FL| |exact E].
    intro u. split; [exact lin_empty|reflexivity]. }
  destruct (var_lin (w2_var w v) (proj1 (W v)) (proj1 (L v))) as (y & E1 & E2 & E3 & E4).
  exists y. split; [exact E1|]. split; [exact E2|]. exists (dsqrt y). auto.
Qed.
