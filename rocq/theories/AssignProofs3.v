(** * AssignProofs3: C35, what binary_assign of UReal2 computes *)

From Coq Require Import List ZArith Bool Sorted Lia Reals Lra.
From Verif Require Import Base Num Map UReal World HessGrad Moments CheckMoments UReal2 World2 HessProofs U2Facts U2World.
From Verif Require Import SpecU2 SpecU2Run U2Values U2Proofs U2Proofs2 AssignProofs AssignProofs2 Demo2.
Import ListNotations.

Section Cross.
  Context {N : Num}.
  Local Open Scope num_scope.
  Implicit Types x y r : hessgrad N.

  Definition keys x := map fst (diagmap x).
  Lemma row_tail hxy y idi js : forall x, srt x -> (forall j, In j js -> (idi < j)%Z) ->
    exists x', asn_cross_row hxy y idi js x = Ret x' /\ srt x' /\ diagmap x' = diagmap x.
  Proof.
    induction js as [|j js IH]; intros x Sx L; cbn [asn_cross_row].
    - exists x. auto.
    - assert (Lj := L j (or_introl eq_refl)). unfold hg_hhess. rewrite (proj2 (Z.eqb_neq idi j)) by lia. cbn [negb].
      unfold hg_tri. rewrite (proj2 (Z.ltb_lt _ _) Lj). cbn [assert_ bind].
      match goal with |- context [asn_cross_row hxy y idi js ?z] => destruct (IH z) as (x' & E & S' & D') end.
      + split; [apply Sx|]. cbn. apply msorted_mupd, Sx.
      + intros k Hk. apply L. now right.
      + exists x'. split; [exact E|]. split; [exact S'|]. now rewrite D'.
  Qed.
  Definition gC (hxy gy : N) (p : N * N) : N * N := (fst p, snd p + hxy * (fst p * gy + fst p * gy)).
  Lemma row_all hxy y idi js x : srt x -> In idi (keys x) -> (forall j, In j js -> (idi < j)%Z) ->
    exists x', asn_cross_row hxy y idi (idi :: js) x = Ret x' /\ srt x' /\ keys x' = keys x /\
      forall i, gh x' i = if (i =? idi)%Z then option_map (gC hxy (dgrad (hg_diag_get y i))) (gh x i) else gh x i.
  Proof.
    intros Sx IN L. cbn [asn_cross_row]. unfold hg_hhess. rewrite Z.eqb_refl. cbn [negb bind].
    match goal with |- context [asn_cross_row hxy y idi js ?z] => destruct (row_tail hxy y idi js z) as (x' & E & S' & D') end.
    - split; [|apply Sx]. cbn. apply msorted_mupd, Sx.
    - exact L.
    - exists x'. split; [exact E|]. split; [exact S'|]. unfold keys, gh. rewrite D'. unfold hg_diag. cbn [diagmap]. split.
      + unfold mupd. apply mset_keys_in; [apply Sx|exact IN].
      + intro i. rewrite find_mupd by apply Sx. destruct (Z.eqb_spec i idi) as [->|NE].
        * rewrite keqb_refl. unfold hg_diag_get, mget. unfold keys in IN.
          destruct (mfind idi (diagmap x)) as [d|] eqn:F.
          -- cbn [option_map dgrad dhh]. reflexivity.
          -- exfalso. apply mfind_None_iff in F; [contradiction|apply Sx].
        * rewrite (proj2 (keqb_neq _ _)) by exact NE. reflexivity.
  Qed.
  Lemma cross_ok hxy y is : forall x, srt x -> StronglySorted Z.lt is -> (forall i, In i is -> In i (keys x)) ->
    exists x', asn_cross hxy y is x = Ret x' /\ srt x' /\ keys x' = keys x /\
      forall i, gh x' i = if existsb (Z.eqb i) is then option_map (gC hxy (dgrad (hg_diag_get y i))) (gh x i) else gh x i.
  Proof.
    induction is as [|idi is IH]; intros x Sx SI HI; cbn [asn_cross].
    - exists x. auto.
    - inversion SI as [|? ? SI' F]; subst. rewrite Forall_forall in F.
      destruct (row_all hxy y idi is x Sx (HI _ (or_introl eq_refl)) F) as (x1 & E1 & S1 & K1 & G1). rewrite E1. cbn [bind].
      destruct (IH x1 S1 SI') as (x' & E & S' & K' & G').
      { intros i Hi. rewrite K1. apply HI. now right. }
      exists x'. split; [exact E|]. split; [exact S'|]. split; [congruence|]. intro i. rewrite G', G1. cbn [existsb].
      destruct (Z.eqb_spec i idi) as [->|NE]; [|reflexivity]. cbn [orb].
      destruct (existsb (Z.eqb idi) is) eqn:Q; [|reflexivity]. apply existsb_exists in Q as (j & Hj & Ej).
      apply Z.eqb_eq in Ej. subst j. specialize (F _ Hj). lia.
  Qed.

  Lemma walk_length next look fuel : forall (it : iter N) vs, walk next look fuel it = Ret vs -> (length vs < fuel)%nat.
  Proof.
    induction fuel as [|fuel IH]; intros it vs E; cbn [walk] in E; [discriminate|].
    destruct (it_more it); [|injection E as <-; cbn; lia].
    destruct (look it) as [v| | |]; cbn [bind] in E; try discriminate. destruct (next it) as [it'| | |]; cbn [bind] in E; try discriminate.
    destruct (walk next look fuel it') as [vs'| | |] eqn:W; cbn [bind] in E; try discriminate. injection E as <-. apply IH in W. cbn. lia.
  Qed.
  Lemma chain_of x skip : hg_ok x -> exists vs, chain hess_next hess_visit (hess_begin x skip) vs /\ hess_visits x skip = Ret vs /\ visits_of x vs.
  Proof.
    intro OK. destruct (visits_of_hg x skip OK) as (vs & E & VO & _). destruct OK as (SD & ST & HK & D).
    assert (C := hess_chain _ _ skip SD ST HK (diagmap x) [] eq_refl). rewrite rest_all in C by assumption.
    match type of C with chain _ _ _ ?l => assert (Q : l = vs) end.
    { destruct skip.
      - rewrite (hess_visits_skip x (conj SD (conj ST (conj HK D)))) in E. injection E as <-. reflexivity.
      - rewrite (hess_visits_all x (conj SD (conj ST (conj HK D)))) in E. injection E as <-. reflexivity. }
    rewrite Q in C. exists vs. auto.
  Qed.
  Lemma visits_once x vs : visits_of x vs -> once vs.
  Proof. intros (_ & _ & F) i. rewrite F. destruct (mfind i (diagmap x)); cbn; lia. Qed.

  (** gradient and diagonal after the call *)
  Definition assign_cell (fx fy hxx hyy hxy : N) (cx cy : option (N * N)) : option (N * N) :=
    let c1 := option_map (gX fx hxx) cx in
    let c2 := match cy with
              | None => c1
              | Some (g, h) => Some (fst (dflt c1) + fy * g, snd (dflt c1) + hyy * g * g + fy * h)
              end in
    if hxy =? n0 then c2 else option_map (gC hxy (fst (dflt cy))) c2.
  Lemma assign_ok (x y : ureal2 N) f fx fy fxx fyy fxy : hg_ok (u2hg x) -> hg_ok (u2hg y) -> kbelow (u2hg x) -> kbelow (u2hg y) ->
    exists z, u2_binary_assign x y f fx fy fxx fyy fxy = Ret z /\ u2mu z = f /\ srt (u2hg z) /\
      forall i, gh (u2hg z) i = assign_cell fx fy (fxx / nofZ 2) (fyy / nofZ 2) (fxy / nofZ 2) (gh (u2hg x) i) (gh (u2hg y) i).
  Proof.
    intros OX OY KX KY. unfold u2_binary_assign. cbv zeta.
    set (hxx := fxx / nofZ 2). set (hyy := fyy / nofZ 2). set (hxy := fxy / nofZ 2).
    destruct (chain_of (u2hg x) (hxx =? n0) OX) as (vs & C & EV & VX).
    destruct (visits_of_hg (u2hg y) (hyy =? n0) OY) as (ys & EY & VY & _). rewrite EY. cbn [bind].
    assert (L1 := walk_length _ _ _ _ _ EV). assert (L2 := walk_length _ _ _ _ _ EY).
    set (n := (walk_fuel (u2hg x) + walk_fuel (u2hg y))%nat) in *.
    assert (Sx : srt (u2hg x)) by (destruct OX as (A & B & _); split; assumption).
    destruct (merge_ok fx fy hxx hyy (length vs + length ys) vs ys (hess_begin (u2hg x) (hxx =? n0)) (u2hg x) (n * n)) as (r & M & Sr & Gr).
    - lia.
    - assert (2 <= n)%nat by (unfold n, walk_fuel; lia). assert (length vs + length ys < n)%nat by (unfold n; lia). nia.
    - exact C.
    - now apply ahead_begin.
    - exact Sx.
    - intros _. rewrite at_pos; [reflexivity|exact Sx|]. unfold inside, hess_begin. cbn [it_min it_max it_tri]. exact (conj (suf_refl _) (conj (suf_refl _) (suf_refl _))).
    - exact (proj1 VX).
    - exact (proj1 VY).
    - eapply visits_once; eauto.
    - eapply visits_once; eauto.
    - exact (visits_below _ _ KX VX).
    - exact (visits_below _ _ KY VY).
    - intros v Hv. destruct VY as (_ & V & _). now destruct (V v Hv) as (_ & _ & L).
    - rewrite M. cbn [bind].
      assert (AF : forall i, gh r i = match gh (u2hg y) i with
              | None => option_map (gX fx hxx) (gh (u2hg x) i)
              | Some (g, h) => let c1 := option_map (gX fx hxx) (gh (u2hg x) i) in
                  Some (fst (dflt c1) + fy * g, snd (dflt c1) + hyy * g * g + fy * h) end).
      { intro i. rewrite Gr. unfold after. destruct VX as (_ & _ & FX). destruct VY as (_ & _ & FY).
        specialize (FX i). specialize (FY i). rewrite FY.
        assert (EX : (if existsb (vis (i, i)) vs then option_map (gX fx hxx) (gh (u2hg x) i) else gh (u2hg x) i)
                     = option_map (gX fx hxx) (gh (u2hg x) i)).
        { unfold gh. destruct (mfind i (diagmap (u2hg x))) as [d|] eqn:F; [|now destruct (existsb _ vs)].
          assert (Q : existsb (vis (i, i)) vs = true).
          { apply existsb_exists. exists (dvisit (i, d)). apply filter_In. rewrite FX. now left. }
          now rewrite Q. }
        cbv zeta. rewrite EX. unfold gh. destruct (mfind i (diagmap (u2hg y))) as [d|]; reflexivity. }
      unfold assign_cell. fold hxx hyy hxy. destruct (hxy =? n0); cbn [negb bind].
      + eexists. split; [reflexivity|]. cbn [u2mu u2hg]. split; [reflexivity|]. split; [exact Sr|]. intro i. rewrite AF. reflexivity.
      + destruct (cross_ok hxy (u2hg y) (map fst (diagmap r)) r Sr) as (r' & E & S' & K' & G').
        * destruct Sr as [SD _]. clear - SD. unfold msorted in SD. 
          induction SD as [|k l SS IH F]; constructor; [exact IH|]. rewrite Forall_forall in *. intros z Hz. apply klt_lt. auto.
        * auto.
        * rewrite E. cbn [bind]. eexists. split; [reflexivity|]. cbn [u2mu u2hg]. split; [reflexivity|]. split; [exact S'|].
          intro i. rewrite G'.
          assert (Q : (if existsb (Z.eqb i) (map fst (diagmap r)) then option_map (gC hxy (dgrad (hg_diag_get (u2hg y) i))) (gh r i) else gh r i)
                      = option_map (gC hxy (dgrad (hg_diag_get (u2hg y) i))) (gh r i)).
          { unfold gh. destruct (mfind i (diagmap r)) as [d|] eqn:F; [|now destruct (existsb _ _)].
            assert (Q : existsb (Z.eqb i) (map fst (diagmap r)) = true).
            { apply existsb_exists. exists i. split; [|apply Z.eqb_refl]. apply mfind_In in F. now apply (in_map fst) in F. }
            now rewrite Q. }
          rewrite Q, AF. unfold hg_diag_get, mget, gh. destruct (mfind i (diagmap (u2hg y))); reflexivity.
  Qed.
End Cross.

Local Open Scope R_scope.

Lemma gh_jet (x : ureal2 RN) i : j_g (jet_of x) i = fst (dflt (gh (u2hg x) i)) /\ j_h (jet_of x) i i = snd (dflt (gh (u2hg x) i)).
Proof. unfold jet_of, gh. cbn [j_g j_h]. rewrite Z.eqb_refl. destruct (mfind i (diagmap (u2hg x))); split; reflexivity. Qed.
Lemma gh_dep (x : ureal2 RN) i : srt (u2hg x) -> j_dep (jet_of x) i <-> gh (u2hg x) i <> None.
Proof.
  intros [SD _]. unfold jet_of, gh. cbn [j_dep]. assert (Q := mfind_None_iff i (diagmap (u2hg x)) SD).
  destruct (mfind i (diagmap (u2hg x))) as [d|] eqn:F; cbn.
  - split; [discriminate|]. intros _. apply mfind_In in F. now apply (in_map fst) in F.
  - split; [|congruence]. intro H. now apply Q in H.
Qed.

Lemma C35_gradient_and_diagonal_proof : forall eig (w : world2 RN), reachable2 eig w ->
  forall (u v : nat) f fx fy fxx fyy fxy, u <> v ->
  let x := jet_of (w2_var w u) in let y := jet_of (w2_var w v) in
  exists z', u2_binary_assign (w2_var w u) (w2_var w v) f fx fy fxx fyy fxy = Ret z' /\
    let z := jet_of z' in
    j_mean z = f /\ (forall i, j_dep z i <-> j_dep x i \/ j_dep y i) /\
    (forall i, j_g z i = j_g x i + (fx * j_g x i + fy * j_g y i)) /\
    (forall i, j_h z i i = (1 + fx) * (j_h x i i + fxx / 2 * (j_g x i * j_g x i))
                           + (fy * j_h y i i + fyy / 2 * (j_g y i * j_g y i)) + fxy * j_g z i * j_g y i).
Proof.
  intros eig w HR u v f fx fy fxx fyy fxy _ x y.
  assert (OK : forall k, hg_ok (u2hg (w2_var w k))) by (intro k; apply (reach_ok eig w HR k)).
  assert (KB : forall k, kbelow (u2hg (w2_var w k))) by (intro k; apply (reach_ok eig w HR k)).
  destruct (assign_ok (w2_var w u) (w2_var w v) f fx fy fxx fyy fxy (OK u) (OK v) (KB u) (KB v)) as (z & E & M & S & G).
  exists z. split; [exact E|]. cbv zeta. split; [exact M|].
  assert (Sk : forall k, srt (u2hg (w2_var w k))) by (intro k; destruct (OK k) as (A & B & _); split; assumption).
  assert (EQ : forall i, gh (u2hg z) i = assign_cell fx fy (fxx / 2) (fyy / 2) (fxy / 2) (gh (u2hg (w2_var w u)) i) (gh (u2hg (w2_var w v)) i))
    by (intro i; rewrite G, !half_zero; reflexivity).
  assert (E0 : forall a : R, neqb (n := RN) a n0 = true -> a = 0).
  { intros a. cbn. unfold Reqb. destruct (Req_EM_T a 0); [auto|discriminate]. }
  split; [|split].
  - intro i. unfold x, y. rewrite !gh_dep by (try exact S; apply Sk). rewrite EQ. unfold assign_cell.
    destruct (gh (u2hg (w2_var w u)) i) as [[g h]|]; destruct (gh (u2hg (w2_var w v)) i) as [[g' h']|];
      destruct (neqb _ _); cbn; intuition congruence.
  - intro i. destruct (gh_jet z i) as [-> _]. unfold x, y. destruct (gh_jet (w2_var w u) i) as [-> _]. destruct (gh_jet (w2_var w v) i) as [-> _].
    rewrite EQ. unfold assign_cell.
    destruct (gh (u2hg (w2_var w u)) i) as [[g h]|]; destruct (gh (u2hg (w2_var w v)) i) as [[g' h']|];
      destruct (neqb _ _); cbn; ring.
  - intro i. destruct (gh_jet z i) as [-> ->]. unfold x, y. destruct (gh_jet (w2_var w u) i) as [-> ->]. destruct (gh_jet (w2_var w v) i) as [-> ->].
    rewrite EQ. unfold assign_cell.
    destruct (gh (u2hg (w2_var w u)) i) as [[g h]|]; destruct (gh (u2hg (w2_var w v)) i) as [[g' h']|];
      destruct (neqb _ _) eqn:Q; cbn; try (apply E0 in Q; assert (fxy = 0) by lra; subst fxy); field.
Qed.

Lemma C35_never_right_proof : forall eig (w : world2 RN), reachable2 eig w ->
  forall (u v : nat) f fx fy fxx fyy fxy, u <> v ->
  exists z z', u2_binary (w2_var w u) (w2_var w v) f fx fy fxx fyy fxy = Ret z /\
    u2_binary_assign (w2_var w u) (w2_var w v) f fx fy fxx fyy fxy = Ret z' /\
    ((forall i, j_g (jet_of z') i = j_g (jet_of z) i) <-> (forall i, j_g (jet_of (w2_var w u)) i = 0)).
Proof.
  intros eig w HR u v f fx fy fxx fyy fxy UV.
  destruct (C35_gradient_and_diagonal_proof eig w HR u v f fx fy fxx fyy fxy UV) as (z' & E & _ & _ & G & _).
  assert (OK : forall k, hg_ok (u2hg (w2_var w k))) by (intro k; apply (reach_ok eig w HR k)).
  assert (KB : forall k, kbelow (u2hg (w2_var w k))) by (intro k; apply (reach_ok eig w HR k)).
  destruct (jet_binary_ok (w2_var w u) (w2_var w v) f fx fy fxx fyy fxy (OK u) (OK v)) as (z & Ez & _ & Hz & _); try apply KB.
  exists z, z'. split; [exact Ez|]. split; [exact E|].
  destruct Hz as (_ & _ & Gz & _). split; intros H i; specialize (H i); specialize (G i); specialize (Gz i);
    cbn [j_g jet_binary] in Gz; rewrite G in *; rewrite Gz in *; lra.
Qed.
