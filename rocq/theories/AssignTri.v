(** * AssignTri: C35, the mixed second derivatives stored by binary_assign of UReal2 *)

From Coq Require Import List ZArith Bool Sorted Lia Reals Lra.
From Verif Require Import Base Num Map UReal World HessGrad Moments CheckMoments UReal2 UReal2Self World2 HessProofs U2Facts U2World.
From Verif Require Import SpecU2 SpecU2Run U2Values U2Proofs U2Proofs2 U2Mixed AssignProofs AssignProofs2 AssignProofs3 AssignSelf Demo2.
Import ListNotations.

(** An iterator that skips pairs which are not stored is, off the diagonal, at a stored one. *)
Section Skip.
  Context {N : Num}.
  Definition skipkey (it : iter N) : Prop := it_skip it = true -> forall i d mn j e mx,
    it_min it = (i, d) :: mn -> it_max it = (j, e) :: mx -> i <> j -> key_of (it_tri it) = Some (i, j).
  Lemma skipkey_begin (h : hessgrad N) sk : skipkey (hess_begin h sk).
  Proof. intros _ i d mn j e mx E1 E2 NE. unfold hess_begin in *. cbn in *. congruence. Qed.
  Lemma skipkey_next (it it' : iter N) : ahead it -> hess_next it = Ret it' -> skipkey it'.
  Proof.
    destruct it as [mn mx tr sk]. unfold hess_next. cbn [it_min it_max it_tri it_skip].
    intros (SM & ST & SX & HK & HB). cbn [it_min it_max it_tri it_skip] in *.
    destruct mn as [|[i d1] mn]; [discriminate|]. destruct mx as [|[j d2] mx]; [discriminate|].
    cbn [at_end negb andb assert_ bind].
    assert (step : forall dm (t : list ((Z * Z) * N)), suf t tr ->
      (_ <- assert_ (negb (at_end dm) || at_end t);;
       _ <- match t with
            | [] => Ret tt
            | (k, _) :: _ => match dm with (j0, _) :: _ => assert_ (pleb (i, j0) k) | [] => UB end
            end;;
       '(dmin', dmax') <-
         (if match t with [] => true | (k, _) :: _ => (i <? fst k)%Z end
          then dmin' <- it_next ((i, d1) :: mn);; Ret (dmin', dmin')
          else if sk then
            match t with
            | [] => UB
            | (k, _) :: _ => _ <- assert_ (at_key (snd k) (advance_to (snd k) dm));; Ret ((i, d1) :: mn, advance_to (snd k) dm)
            end
          else Ret ((i, d1) :: mn, dm));;
       _ <- assert_ (negb (at_end dmax') || at_end dmin');; Ret (mkIt dmin' dmax' t sk)) = Ret it' -> skipkey it').
    { intros dm t Ht E.
      assert (HK' : forall a b, In (a, b) (map fst t) -> In a (map fst ((i, d1) :: mn)) /\ (a < b)%Z)
        by (intros a b H; apply HK; eapply suf_keys; eauto).
      destruct (assert_ (negb (at_end dm) || at_end t)) as [[]| | |]; cbn [bind] in E; try discriminate.
      destruct t as [|[[a b] v] t].
      - cbn [bind it_next] in E. destruct (assert_ _) as [[]| | |] in E; cbn [bind] in E; try discriminate. injection E as <-.
        intros _ i' d' mn' j' e' mx' E1 E2 NE. cbn in *. congruence.
      - destruct dm as [|[j0 e0] dm]; [discriminate|].
        destruct (assert_ (pleb (i, j0) (a, b))) as [[]| | |] eqn:EP; cbn [bind] in E; try discriminate.
        cbn [fst snd] in E. destruct (i <? a)%Z eqn:Eia; cbn [bind it_next] in E.
        + destruct (assert_ _) as [[]| | |] in E; cbn [bind] in E; try discriminate. injection E as <-.
          intros _ i' d' mn' j' e' mx' E1 E2 NE. cbn in *. congruence.
        + destruct sk; cbn [bind] in E.
          * destruct (assert_ (at_key _ _)) as [[]| | |] eqn:EA; cbn [bind] in E; try discriminate. apply assert_true in EA.
            destruct (assert_ _) as [[]| | |] in E; cbn [bind] in E; try discriminate. injection E as <-.
            intros _ i' d' mn' j' e' mx' E1 E2 NE. cbn [it_min it_max it_tri key_of] in *.
            rewrite (advance_key b ((j0, e0) :: dm) _ _ _ E2 EA). assert (i = i') by congruence. subst i'. f_equal. f_equal.
            destruct (HK' a b (or_introl eq_refl)) as [HA _]. cbn in HA. destruct HA as [<-|HA]; [reflexivity|].
            destruct (msorted_inv _ _ _ SM) as [_ L]. apply L in HA. apply klt_lt in HA. lia.
          * destruct (assert_ _) as [[]| | |] in E; cbn [bind] in E; try discriminate. injection E as <-. intro H. cbn in H. discriminate. }
    destruct (it_eqb _ _); cbn [bind it_next].
    - apply (step mx tr); apply suf_refl.
    - destruct tr as [|tr0 tr]; cbn [it_next bind]; [discriminate|].
      apply (step ((j, d2) :: mx) tr); exists [tr0]; reflexivity.
  Qed.
  (** the value read is the stored one *)
  Lemma visit_val (x : hessgrad N) it0 v0 v : srt x -> er (iter_at x (pos_of it0)) = er it0 -> ahead it0 -> skipkey it0 -> it_skip it0 = true ->
    hess_visit it0 = Ret v0 -> hess_visit (iter_at x (pos_of it0)) = Ret v -> vid1 v <> vid2 v -> mfind (vid v) (trimap x) = Some (vval v).
  Proof.
    intros Sx E A SK Hs V0 V NE. destruct (visit_at _ _ _ _ Sx E A V0) as (v' & V' & I1 & L1 & _). rewrite V in V'. injection V' as <-.
    destruct (heads _ _ V0) as (d1 & mn & d2 & mx & E1 & E2).
    assert (KK : key_of (it_tri it0) = Some (vid v)).
    { rewrite I1. apply (SK Hs _ _ _ _ _ _ E1 E2). unfold vid in I1. injection I1 as <- <-. exact NE. }
    apply er_eq in E as (F1 & F2 & F3 & F4). unfold hess_visit in V.
    destruct (it_min (iter_at x (pos_of it0))) as [|[i c1] m1] eqn:Q1; [discriminate|].
    destruct (it_max (iter_at x (pos_of it0))) as [|[j c2] m2] eqn:Q2; [discriminate|].
    destruct (it_tri it0) as [|[k t0] tr0]; [discriminate|]. cbn in KK. injection KK as ->.
    destruct (it_tri (iter_at x (pos_of it0))) as [|[k t] tr] eqn:Q3; [discriminate|]. cbn in F3. injection F3 as -> F3.
    rewrite F4, Hs in V.
    destruct (it_eqb ((i, c1) :: m1) ((j, c2) :: m2)) eqn:QE.
    - exfalso. destruct (assert_ _) as [[]| | |] in V; cbn [bind] in V; try discriminate. injection V as <-. cbn [vid1 vid2] in NE. apply NE.
      destruct A as (SM & _ & SX & _). 
      assert (LE : length (it_max it0) = length (it_min it0)).
      { apply (f_equal (@length Z)) in F1. apply (f_equal (@length Z)) in F2. rewrite !map_length in F1, F2.
        unfold it_eqb in QE. apply Nat.eqb_eq in QE. lia. }
      assert (EM := suf_len _ _ SX (eq_sym LE)). rewrite EM, <- F1 in F2. cbn in F2. now injection F2.
    - destruct (assert_ _) as [[]| | |] in V; cbn [bind] in V; try discriminate. injection V as <-. cbn [vid vid1 vid2 vval] in *.
      eapply at_head; [apply Sx|]. unfold iter_at in Q3. cbn [it_tri] in Q3. exact Q3.
  Qed.
End Skip.

Section Skip2.
  Context {N : Num}.
  Lemma skip_next (it it' : iter N) : hess_next it = Ret it' -> it_skip it' = it_skip it.
  Proof.
    intro H. unfold hess_next in H.
    repeat (match type of H with
            | bind ?o _ = _ => destruct o as [?| | |] in H; cbn [bind] in H; try discriminate
            | (let '(_, _) := ?p in _) = _ => destruct p in H
            end).
    now injection H as <-.
  Qed.
End Skip2.

Local Open Scope R_scope.
Notation hgR := (hessgrad RN).
Definition th (x : hgR) (q : Z * Z) : option R := mfind q (trimap x).
Definition dft (o : option R) : R := match o with Some h => h | None => 0 end.

Lemma asn_x_tri fx (x : hgR) it0 v0 v x1 : srt x -> it_more it0 = true -> er (iter_at x (pos_of it0)) = er it0 -> ahead it0 ->
  skipkey it0 -> it_skip it0 = true -> hess_visit it0 = Ret v0 -> hess_visit (iter_at x (pos_of it0)) = Ret v ->
  asn_x fx 0 (pos_of it0) v x = Ret x1 -> forall q, fst q <> snd q ->
  th x1 q = if keqb q (vid v0) then option_map (Rmult (1 + fx)) (th x q) else th x q.
Proof.
  intros Sx MO E A SK Hs V0 V X q Hq. destruct (visit_at _ _ _ _ Sx E A V0) as (v' & V' & I1 & L1 & _). rewrite V in V'. injection V' as <-.
  unfold asn_x in X. assert (IV : vid v = (vid1 v, vid2 v)) by reflexivity.
  destruct (hg_hhess (vid1 v) (vid2 v) _ x) as [r| | |] eqn:H1; cbn [bind] in X; try discriminate.
  assert (NS : not_after it0 (vid1 v, vid2 v)) by (rewrite <- IV, I1; now apply not_after_self).
  destruct (keep_h _ _ _ _ it0 _ Sx (fun _ => E) A L1 NS H1) as [Sr Er]. specialize (Er MO).
  destruct (visit_at _ _ _ _ Sr Er A V0) as (w & W1 & J1 & L2 & _). rewrite W1 in X. cbn [bind] in X.
  assert (IW : (vid1 w, vid2 w) = (vid1 v, vid2 v)) by (rewrite <- IV, I1, <- J1; reflexivity).
  assert (Ia : vid1 w = vid1 v) by congruence. assert (Ib : vid2 w = vid2 v) by congruence. rewrite Ia, Ib in X. rewrite <- I1, IV.
  unfold hg_hhess in H1, X. destruct (Z.eqb_spec (vid1 v) (vid2 v)) as [Q|Q]; cbn [negb bind] in H1, X.
  - injection H1 as <-. injection X as <-. unfold th, hg_diag. cbn [trimap]. rewrite (proj2 (keqb_neq _ _)); [reflexivity|].
    intros ->. cbn in Hq. congruence.
  - assert (VV := visit_val x it0 v0 v Sx E A SK Hs V0 V Q).
    assert (VW := visit_val r it0 v0 w Sr Er A SK Hs V0 W1 ltac:(congruence)).
    unfold hg_tri in H1, X. rewrite (proj2 (Z.ltb_lt _ _)) in H1, X by lia. cbn [assert_ bind] in H1, X.
    injection H1 as <-. injection X as <-. unfold th. cbn [trimap diagmap] in *.
    change (vid w) with (vid1 w, vid2 w) in VW. change (vid v) with (vid1 v, vid2 v) in VV. rewrite Ia, Ib in VW.
    rewrite !find_mupd in * by (try apply Sr; apply Sx). rewrite keqb_refl in VW. unfold mget in *. rewrite VV in VW. injection VW as VW.
    destruct (keqb q (vid1 v, vid2 v)) eqn:KQ; [|reflexivity]. apply keqb_eq in KQ. subst q. rewrite find_mupd by apply Sx. rewrite keqb_refl. unfold mget.
    rewrite VV, <- VW. cbn. f_equal. ring.
Qed.
Lemma asn_y_tri fy hyy v fresh (x x1 : hgR) : srt x -> asn_y fy hyy v fresh x = Ret x1 -> forall q, fst q <> snd q ->
  th x1 q = if keqb q (vid v) then Some (dft (th x q) + (hyy * dgrad (vd1 v) * dgrad (vd2 v) + fy * vval v)) else th x q.
Proof.
  intros Sx E q Hq. unfold asn_y in E. unfold hg_hhess in E. destruct (Z.eqb_spec (vid1 v) (vid2 v)) as [Q|Q]; cbn [negb bind] in E.
  - rewrite (proj2 (keqb_neq _ _)); [|unfold vid; intros ->; cbn in Hq; congruence].
    destruct fresh; cbn [bind] in E; injection E as <-; reflexivity.
  - unfold hg_tri in E. destruct (Z.ltb_spec (vid1 v) (vid2 v)) as [L|L]; cbn [assert_ bind] in E; [|destruct fresh; cbn [bind] in E; discriminate].
    unfold th, vid. destruct fresh; cbn [bind] in E; injection E as <-; cbn [trimap]; rewrite ?mupd_mupd; rewrite find_mupd by apply Sx;
      (destruct (keqb q (vid1 v, vid2 v)) eqn:KQ; [|reflexivity]); apply keqb_eq in KQ; subst q; unfold mget, dft;
      destruct (mfind _ (trimap x)); cbn; f_equal; ring.
Qed.

Section LoopT.
  Variables fx fy hyy : R.
  Implicit Types vs ys : list (visit RN).
  Definition afterT vs ys (q : Z * Z) (c : option R) : option R :=
    let c1 := if existsb (vis q) vs then option_map (Rmult (1 + fx)) c else c in
    match filter (vis q) ys with [] => c1 | v :: _ => Some (dft c1 + (hyy * dgrad (vd1 v) * dgrad (vd2 v) + fy * vval v)) end.
  Definition oncep vs : Prop := forall q, (length (filter (vis q) vs) <= 1)%nat.
  Lemma oncep_once vs : oncep vs -> once vs. Proof. intros H i. apply H. Qed.
  Lemma oncep_tl v vs : oncep (v :: vs) -> oncep vs.
  Proof. intros H q. specialize (H q). cbn [filter] in H. destruct (vis _ v); cbn [length] in H; lia. Qed.
  Lemma oncep_hd v vs q : oncep (v :: vs) -> vis q v = true -> filter (vis q) vs = [].
  Proof. intros H E. specialize (H q). cbn [filter] in H. rewrite E in H. cbn [length] in H. destruct (filter _ vs); [reflexivity|cbn in H; lia]. Qed.
  Lemma visq q (v : visit RN) : vis q v = keqb q (vid v).
  Proof. apply eq_true_iff_eq. unfold vis. rewrite !keqb_eq. split; congruence. Qed.
  Lemma afterT_x v vs ys q c : oncep (v :: vs) ->
    afterT (v :: vs) ys q c = afterT vs ys q (if vis q v then option_map (Rmult (1 + fx)) c else c).
  Proof.
    intro O. unfold afterT. cbn [existsb]. destruct (vis q v) eqn:E; cbn [orb]; [|reflexivity].
    now rewrite (exists_filter _ _ (oncep_hd _ _ _ O E)).
  Qed.
  Lemma afterT_y v vs ys q c : oncep (v :: ys) -> (vis q v = true -> existsb (vis q) vs = false) ->
    afterT vs (v :: ys) q c = afterT vs ys q (if vis q v then Some (dft c + (hyy * dgrad (vd1 v) * dgrad (vd2 v) + fy * vval v)) else c).
  Proof.
    intros O X. unfold afterT. cbn [filter]. destruct (vis q v) eqn:E; [|reflexivity].
    now rewrite (oncep_hd _ _ _ O E), X by reflexivity.
  Qed.

  Lemma merge_tri n : forall vs ys it0 (x : hgR) fuel, (length vs + length ys <= n)%nat -> (n < fuel)%nat ->
    chain hess_next hess_visit it0 vs -> ahead it0 -> skipkey it0 -> it_skip it0 = true -> srt x -> at_more x it0 ->
    StronglySorted vle vs -> StronglySorted vle ys -> oncep vs -> oncep ys ->
    List.Forall below_max vs -> List.Forall below_max ys -> (forall v, In v ys -> (vid1 v <= vid2 v)%Z) ->
    exists x', asn_merge fuel fx fy 0 hyy x (pos_of it0) ys = Ret x' /\ srt x' /\
      forall q, fst q <> snd q -> th x' q = afterT vs ys q (th x q).
  Proof.
    induction n as [|n IH]; intros vs ys it0 x fuel Ln Lf CH A SK Hs Sx AM SV SY OV OY BV BY LY;
      (destruct fuel as [|fuel]; [lia|]); cbn [asn_merge]; rewrite (more_at _ _ AM).
    - destruct vs; [|cbn in Ln; lia]. destruct ys; [|cbn in Ln; lia]. inversion CH; subst. rewrite H. cbn [negb andb at_end].
      exists x. split; [reflexivity|]. split; [exact Sx|]. reflexivity.
    - inversion CH as [it E Ea Eb|it v0 it' vs' E V X CH' Ea Eb]; subst.
      + (* x is over *)
        rewrite E. cbn [negb andb]. destruct ys as [|vy ys]; cbn [at_end].
        { exists x. split; [reflexivity|]. split; [exact Sx|]. reflexivity. }
        cbn [bind]. inversion BY as [|? ? B1 B2]; subst. destruct (max_after _ B1) as (P1 & P2 & P3). rewrite P1, P2, P3.
        cbn [bind negb]. destruct (asn_y_ok fy hyy vy true x it0 Sx AM A (LY vy (or_introl eq_refl)) ltac:(congruence)) as (x2 & Y & S2 & A2 & _).
        assert (T2 := asn_y_tri _ _ _ _ _ _ Sx Y).
        rewrite Y. cbn [bind it_next]. inversion SY; subst.
        destruct (IH [] ys it0 x2 fuel ltac:(cbn in *; lia) ltac:(lia) CH A SK Hs S2 A2 SV ltac:(assumption) OV (oncep_tl _ _ OY) BV B2 ltac:(intros v Hv; apply LY; now right)) as (x' & M & S' & G').
        exists x'. split; [exact M|]. split; [exact S'|]. intros q Hq. rewrite G', afterT_y by (auto; reflexivity).
        rewrite T2, visq by exact Hq. reflexivity.
      + rewrite E. cbn [negb andb]. assert (EQ := AM E).
        destruct (asn_x_ok fx 0 x it0 v0 Sx EQ A V) as (v & x1 & V1 & I1 & X1 & S1 & K1 & _).
        assert (T1 := asn_x_tri fx x it0 v0 v x1 Sx E EQ A SK Hs V V1 X1).
        rewrite V1. cbn [bind]. rewrite I1. inversion BV as [|? ? B1 B2]; subst. inversion SV as [|? ? SV' SVh]; subst.
        assert (A' := ahead_next _ _ A X). assert (SK' := skipkey_next _ _ A X). assert (Hs' : it_skip it' = true) by (rewrite (skip_next _ _ X); exact Hs).
        destruct ys as [|vy ys].
        * destruct (max_after _ B1) as (P1 & P2 & P3). rewrite P1, P2, X1. cbn [bind].
          destruct (next_at x1 it0 it' S1 K1 X) as (N1 & AM'). rewrite N1. cbn [bind].
          destruct (IH vs' [] it' x1 fuel ltac:(cbn in *; lia) ltac:(lia) CH' A' SK' Hs' S1 AM' SV' SY (oncep_tl _ _ OV) OY B2 BY LY) as (x' & M & S' & G').
          exists x'. split; [exact M|]. split; [exact S'|]. intros q Hq. rewrite G', afterT_x by assumption. rewrite T1, visq by exact Hq. reflexivity.
        * inversion BY as [|? ? C1 C2]; subst. inversion SY as [|? ? SY' SYh]; subst.
          unfold pleb, peqb. rewrite (kcmp_opp (vid v0) (vid vy)). destruct (kcmp (vid v0) (vid vy)) eqn:C; cbn [CompOpp negb].
          -- (* the same pair *)
             rewrite X1. cbn [bind].
             destruct (asn_y_ok fy hyy vy false x1 it0 S1 ltac:(intro; exact K1) A (LY vy (or_introl eq_refl))) as (x2 & Y & S2 & A2 & _).
             { intros _. exists v0. split; [exact V|]. unfold klt. rewrite C. discriminate. }
             assert (T2 := asn_y_tri _ _ _ _ _ _ S1 Y).
             rewrite Y. cbn [bind]. destruct (next_at x2 it0 it' S2 (A2 E) X) as (N1 & AM'). rewrite N1. cbn [bind it_next].
             destruct (IH vs' ys it' x2 fuel ltac:(cbn in *; lia) ltac:(lia) CH' A' SK' Hs' S2 AM' SV' SY' (oncep_tl _ _ OV) (oncep_tl _ _ OY) B2 C2 ltac:(intros u Hu; apply LY; now right)) as (x' & M & S' & G').
             exists x'. split; [exact M|]. split; [exact S'|]. intros q Hq. rewrite G', afterT_x by assumption.
             apply kcmp_eq in C.
             rewrite afterT_y; [|exact OY|].
             ++ rewrite T2, T1, !visq by exact Hq. reflexivity.
             ++ intro Q. apply exists_filter. apply (oncep_hd _ _ _ OV). rewrite visq in *. now rewrite C.
          -- (* x first *)
             rewrite X1. cbn [bind]. destruct (next_at x1 it0 it' S1 K1 X) as (N1 & AM'). rewrite N1. cbn [bind].
             destruct (IH vs' (vy :: ys) it' x1 fuel ltac:(cbn in *; lia) ltac:(lia) CH' A' SK' Hs' S1 AM' SV' SY (oncep_tl _ _ OV) OY B2 BY LY) as (x' & M & S' & G').
             exists x'. split; [exact M|]. split; [exact S'|]. intros q Hq. rewrite G', afterT_x by assumption. rewrite T1, visq by exact Hq. reflexivity.
          -- (* y first *)
             cbn [bind].
             destruct (asn_y_ok fy hyy vy true x it0 Sx AM A (LY vy (or_introl eq_refl))) as (x2 & Y & S2 & A2 & _).
             { intros _. exists v0. split; [exact V|]. unfold klt. rewrite C. discriminate. }
             assert (T2 := asn_y_tri _ _ _ _ _ _ Sx Y).
             rewrite Y. cbn [bind it_next].
             destruct (IH (v0 :: vs') ys it0 x2 fuel ltac:(cbn in *; lia) ltac:(lia) CH A SK Hs S2 A2 SV SY' OV (oncep_tl _ _ OY) BV C2 ltac:(intros u Hu; apply LY; now right)) as (x' & M & S' & G').
             exists x'. split; [exact M|]. split; [exact S'|]. intros q Hq. rewrite G' by exact Hq.
             rewrite afterT_y; [|exact OY|].
             ++ rewrite T2, visq by exact Hq. reflexivity.
             ++ intro Q. rewrite visq in Q. apply keqb_eq in Q. apply absent; [exact SV|]. rewrite Q. now apply kcmp_gt.
  Qed.
End LoopT.

(** ** The cross term *)
Section CrossT.
  Variable hxy : R.
  Variable y : hgR.
  Definition gr (x : hgR) (i : Z) : R := dgrad (hg_diag_get x i).
  Definition mixed (g : Z -> R) (i j : Z) : R := hxy * (g i * gr y j + g j * gr y i).
  Lemma row_tri idi js : forall x x', srt x -> (forall j, In j js -> (idi < j)%Z) -> NoDup js -> asn_cross_row hxy y idi js x = Ret x' ->
    srt x' /\ diagmap x' = diagmap x /\
    forall i j, i <> j -> th x' (i, j) = if (i =? idi)%Z && existsb (Z.eqb j) js then Some (dft (th x (i, j)) + mixed (gr x) i j) else th x (i, j).
  Proof.
    induction js as [|k js IH]; intros x x' Sx L ND E; cbn [asn_cross_row] in E.
    - injection E as <-. split; [exact Sx|]. split; [reflexivity|]. intros. now rewrite andb_false_r.
    - assert (Lk := L k (or_introl eq_refl)). unfold hg_hhess in E. rewrite (proj2 (Z.eqb_neq idi k)) in E by lia. cbn [negb] in E.
      unfold hg_tri in E. rewrite (proj2 (Z.ltb_lt _ _) Lk) in E. cbn [assert_ bind] in E. inversion ND as [|? ? NI ND']; subst.
      apply IH in E as (S' & D' & T'); [|split; [apply Sx|cbn; apply msorted_mupd, Sx]|intros j Hj; apply L; now right|exact ND'].
      split; [exact S'|]. cbn [diagmap] in D'. split; [exact D'|]. intros i j NE. rewrite T' by exact NE. clear T'.
      unfold th. cbn [trimap existsb]. rewrite find_mupd by apply Sx.
      assert (EG : mixed (gr (mkHG (diagmap x) (mupd n0 (idi, k) (fun h => nadd h (nmul hxy (nadd (nmul (dgrad (hg_diag_get x idi)) (dgrad (hg_diag_get y k))) (nmul (dgrad (hg_diag_get x k)) (dgrad (hg_diag_get y idi)))))) (trimap x)))) i j = mixed (gr x) i j) by reflexivity.
      destruct (Z.eqb_spec i idi) as [->|NI'].
      + destruct (Z.eqb_spec j k) as [->|NJ].
        * rewrite keqb_refl. cbn [orb andb]. destruct (existsb (Z.eqb k) js) eqn:Q.
          { exfalso. apply existsb_exists in Q as (z & Hz & Ez). apply Z.eqb_eq in Ez. now subst z. }
          unfold mget, mixed, gr, dft. destruct (mfind (idi, k) (trimap x)); reflexivity.
        * rewrite (proj2 (keqb_neq _ _)) by congruence. cbn [orb andb]. destruct (existsb (Z.eqb j) js); reflexivity.
      + rewrite (proj2 (keqb_neq _ _)) by congruence. reflexivity.
  Qed.
  Lemma gr_dhh (x : hgR) id f k : srt x -> gr (hg_diag id (fun d => mkD (dgrad d) (f d) (dmom d)) x) k = gr x k.
  Proof.
    intros [SD _]. unfold gr, hg_diag_get, hg_diag, mget. cbn [diagmap]. rewrite find_mupd by exact SD.
    destruct (keqb k id) eqn:Q; [|reflexivity]. apply keqb_eq in Q. subst. unfold mget. destruct (mfind id (diagmap x)); reflexivity.
  Qed.
  Lemma cross_tri is : forall x x', srt x -> StronglySorted Z.lt is -> asn_cross hxy y is x = Ret x' ->
    srt x' /\ (forall k, gr x' k = gr x k) /\
    forall i j, (i < j)%Z -> th x' (i, j) = if existsb (Z.eqb i) is && existsb (Z.eqb j) is then Some (dft (th x (i, j)) + mixed (gr x) i j) else th x (i, j).
  Proof.
    induction is as [|idi is IH]; intros x x' Sx SI E; cbn [asn_cross] in E.
    - injection E as <-. auto.
    - inversion SI as [|? ? SI' F]; subst. rewrite Forall_forall in F.
      destruct (asn_cross_row hxy y idi (idi :: is) x) as [x1| | |] eqn:E1; cbn [bind] in E; try discriminate.
      cbn [asn_cross_row] in E1. unfold hg_hhess in E1. rewrite Z.eqb_refl in E1. cbn [negb bind] in E1.
      match type of E1 with asn_cross_row _ _ _ _ ?z = _ => set (x0 := z) in E1 end.
      assert (S0 : srt x0) by (split; [cbn; apply msorted_mupd, Sx|apply Sx]).
      assert (G0 : forall k, gr x0 k = gr x k) by (intro k; apply (gr_dhh x idi _ k Sx)).
      assert (ND : NoDup is).
      { clear - SI'. induction SI' as [|a l S IHl H]; constructor; [|exact IHl]. rewrite Forall_forall in H. intro I. apply H in I. lia. }
      destruct (row_tri idi is x0 x1 S0 F ND E1) as (S1 & D1 & T1).
      assert (G1 : forall k, gr x1 k = gr x k) by (intro k; rewrite <- G0; unfold gr, hg_diag_get; now rewrite D1).
      destruct (IH x1 x' S1 SI' E) as (S' & G' & T'). split; [exact S'|]. split; [intro k; now rewrite G', G1|].
      intros i j L. rewrite T', T1 by (auto; lia). change (th x0 (i, j)) with (th x (i, j)).
      assert (M1 : mixed (gr x1) i j = mixed (gr x) i j) by (unfold mixed; now rewrite !G1).
      assert (M0 : mixed (gr x0) i j = mixed (gr x) i j) by (unfold mixed; now rewrite !G0).
      rewrite M1, M0. cbn [existsb].
      destruct (Z.eqb_spec i idi) as [->|NI].
      + assert (Q : existsb (Z.eqb idi) is = false).
        { destruct (existsb (Z.eqb idi) is) eqn:Q; [|reflexivity]. apply existsb_exists in Q as (z & Hz & Ez). apply Z.eqb_eq in Ez. subst z. apply F in Hz. lia. }
        rewrite Q. cbn [orb andb]. rewrite (proj2 (Z.eqb_neq j idi)) by lia. reflexivity.
      + cbn [orb andb]. destruct (Z.eqb_spec j idi) as [->|NJ]; [|reflexivity].
        assert (Q : existsb (Z.eqb i) is = false).
        { destruct (existsb (Z.eqb i) is) eqn:Q; [|reflexivity]. apply existsb_exists in Q as (z & Hz & Ez). apply Z.eqb_eq in Ez. subst z. apply F in Hz. lia. }
        rewrite Q. reflexivity.
  Qed.
End CrossT.

Lemma oncep_of (h : hgR) vs : visits_of h vs -> visits_exact h vs -> oncep vs.
Proof.
  intros (_ & _ & F) X [i j]. destruct (Z.eq_dec i j) as [->|NE].
  - rewrite F. destruct (mfind j (diagmap h)); cbn; lia.
  - rewrite X by exact NE. destruct (mfind (i, j) (trimap h)); cbn; lia.
Qed.

Lemma assign_tri (x y : ureal2 RN) f fx fy fyy fxy z : hg_ok (u2hg x) -> hg_ok (u2hg y) -> kbelow (u2hg x) -> kbelow (u2hg y) -> U2Values.covered fyy y ->
  u2_binary_assign x y f fx fy (@n0 RN) fyy fxy = Ret z ->
  forall i j, (i < j)%Z ->
    dft (th (u2hg z) (i, j)) = (1 + fx) * dft (th (u2hg x) (i, j)) + fy * dft (th (u2hg y) (i, j))
      + fyy / 2 * (gr (u2hg y) i * gr (u2hg y) j)
      + fxy / 2 * (gr (u2hg z) i * gr (u2hg y) j + gr (u2hg z) j * gr (u2hg y) i).
Proof.
  intros OX OY KX KY CY E i j L. unfold u2_binary_assign in E. cbv zeta in E.
  assert (H0 : (@n0 RN / @nofZ RN 2)%num = 0) by (change (0 / 2 = 0); lra).
  rewrite H0 in E. set (hyy := (fyy / @nofZ RN 2)%num) in *. assert (HY : hyy = fyy / 2) by reflexivity. set (hxy := (fxy / @nofZ RN 2)%num) in *. assert (HX : hxy = fxy / 2) by reflexivity. clearbody hxy.
  assert (Z0 : neqb (n := RN) 0 n0 = true) by (apply Reqb_true; reflexivity). rewrite Z0 in E.
  destruct (chain_of (u2hg x) true OX) as (vs & C & EV & VX).
  destruct (chain_of (u2hg y) (neqb hyy n0) OY) as (ys & _ & EY & VY). rewrite EY in E. cbn [bind] in E.
  assert (XX := skip_exact _ _ OX EV). destruct (covered_exact fyy y ys OY CY EY) as [XY NY].
  assert (L1 := walk_length _ _ _ _ _ EV). assert (L2 := walk_length _ _ _ _ _ EY).
  set (n := (walk_fuel (u2hg x) + walk_fuel (u2hg y))%nat) in *.
  assert (Sx : srt (u2hg x)) by (destruct OX as (A & B & _); split; assumption).
  assert (FU : (length vs + length ys < n * n)%nat).
  { assert (2 <= n)%nat by (unfold n, walk_fuel; lia). assert (length vs + length ys < n)%nat by (unfold n; lia). nia. }
  assert (AM : at_more (u2hg x) (hess_begin (u2hg x) true)).
  { intros _. rewrite at_pos; [reflexivity|exact Sx|]. unfold inside, hess_begin. cbn [it_min it_max it_tri]. exact (conj (suf_refl _) (conj (suf_refl _) (suf_refl _))). }
  assert (LY : forall v, In v ys -> (vid1 v <= vid2 v)%Z).
  { intros v Hv. destruct VY as (_ & V & _). now destruct (V v Hv) as (_ & _ & Q). }
  destruct (merge_tri fx fy hyy (length vs + length ys) vs ys (hess_begin (u2hg x) true) (u2hg x) (n * n) ltac:(lia) FU C
    (ahead_begin _ _ OX) (skipkey_begin _ _) eq_refl Sx AM (proj1 VX) (proj1 VY) (oncep_of _ _ VX XX) (oncep_of _ _ VY XY)
    (visits_below _ _ KX VX) (visits_below _ _ KY VY) LY) as (r & M & Sr & T).
  destruct (merge_ok fx fy 0 hyy (length vs + length ys) vs ys (hess_begin (u2hg x) true) (u2hg x) (n * n) ltac:(lia) FU C
    (ahead_begin _ _ OX) Sx AM (proj1 VX) (proj1 VY) (visits_once _ _ VX) (visits_once _ _ VY)
    (visits_below _ _ KX VX) (visits_below _ _ KY VY) LY) as (r1 & M1 & _ & G).
  rewrite M in M1. injection M1 as <-. rewrite M in E. cbn [bind] in E.
  assert (TR : dft (th r (i, j)) = (1 + fx) * dft (th (u2hg x) (i, j)) + fy * dft (th (u2hg y) (i, j)) + fyy / 2 * (gr (u2hg y) i * gr (u2hg y) j)).
  { rewrite T by (cbn; lia). unfold afterT. specialize (XX i j ltac:(lia)). specialize (XY i j ltac:(lia)). rewrite XY. specialize (NY i j L).
    assert (Q : (if existsb (vis (i, j)) vs then option_map (Rmult (1 + fx)) (th (u2hg x) (i, j)) else th (u2hg x) (i, j))
                = option_map (Rmult (1 + fx)) (th (u2hg x) (i, j))).
    { unfold th. destruct (mfind (i, j) (trimap (u2hg x))) as [t|]; [|now destruct (existsb _ _)].
      assert (Q : existsb (vis (i, j)) vs = true) by (apply existsb_exists; eexists; apply filter_In; rewrite XX; now left).
      now rewrite Q. }
    rewrite Q. clear Q. rewrite <- !mget_dgrad in NY. rewrite <- HY in *. unfold th, gr, hg_diag_get.
    destruct (mfind (i, j) (trimap (u2hg x))) as [t|]; destruct (mfind (i, j) (trimap (u2hg y))) as [t'|];
      try specialize (NY eq_refl); cbn [option_map dft tvisit vd1 vd2 vval fst snd]; change (@n0 RN) with 0 in *; lra. }
  destruct (neqb hxy n0) eqn:QZ; cbn [negb bind] in E.
  - injection E as <-. cbn [u2hg]. apply Reqb_true in QZ. change (@n0 RN) with 0 in QZ. rewrite TR. rewrite <- HX, QZ. ring.
  - destruct (asn_cross hxy (u2hg y) (map fst (diagmap r)) r) as [r2| | |] eqn:EC; cbn [bind] in E; try discriminate.
    injection E as <-. cbn [u2hg].
    destruct (cross_tri hxy (u2hg y) (map fst (diagmap r)) r r2 Sr) as (_ & G2 & T2); [|exact EC|].
    { destruct Sr as [SD _]. clear - SD. unfold msorted in SD.
      induction SD as [|k l SS IH F]; constructor; [exact IH|]. rewrite Forall_forall in *. intros q Hq. apply klt_lt. auto. }
    rewrite T2 by exact L. rewrite !G2, <- HX, <- TR.
    assert (NK : forall k, existsb (Z.eqb k) (map fst (diagmap r)) = false -> gr r k = 0 /\ gr (u2hg y) k = 0).
    { intros k Q. assert (NI : ~ In k (map fst (diagmap r))).
      { intro I. rewrite (proj2 (existsb_exists (Z.eqb k) (map fst (diagmap r)))) in Q; [discriminate|]. exists k. split; [exact I|apply Z.eqb_refl]. }
      assert (F0 : mfind k (diagmap r) = None) by (apply mfind_None_iff; [apply Sr|exact NI]).
      split; unfold gr, hg_diag_get, mget; [now rewrite F0|].
      specialize (G k). unfold gh in G. rewrite F0 in G. unfold after in G. cbn [option_map] in G. destruct VY as (_ & _ & FY). rewrite FY in G.
      destruct (mfind k (diagmap (u2hg y))); [discriminate|reflexivity]. }
    unfold mixed.
    destruct (existsb (Z.eqb i) (map fst (diagmap r))) eqn:Qi; cbn [andb].
    + destruct (existsb (Z.eqb j) (map fst (diagmap r))) eqn:Qj; [cbn [dft]; ring|]. destruct (NK _ Qj) as [-> ->]. ring.
    + destruct (NK _ Qi) as [-> ->]. ring.
Qed.

Lemma C35_mixed_partial_proof : forall eig (w : world2 RN), reachable2 eig w ->
  forall (u v : nat) f fx fy fyy fxy, u <> v ->
  let x := jet_of (w2_var w u) in let y := jet_of (w2_var w v) in fyy = 0 \/ single y ->
  exists z', u2_binary_assign (w2_var w u) (w2_var w v) f fx fy 0 fyy fxy = Ret z' /\
    let z := jet_of z' in
    forall i j, i <> j ->
      j_h z i j = (1 + fx) * j_h x i j + fy * j_h y i j + fyy / 2 * (j_g y i * j_g y j) + fxy / 2 * (j_g z i * j_g y j + j_g z j * j_g y i).
Proof.
  intros eig w HR u v f fx fy fyy fxy UV. cbv zeta. intro CY.
  destruct (reach_ok eig w HR u) as [OX KX]. destruct (reach_ok eig w HR v) as [OY KY].
  destruct (assign_ok (w2_var w u) (w2_var w v) f fx fy (@n0 RN) fyy fxy OX OY KX KY) as (z & E & _).
  exists z. split; [exact E|]. assert (T := assign_tri _ _ _ _ _ _ _ _ OX OY KX KY (single_covered _ _ OY CY) E).
  assert (GJ : forall (a : ureal2 RN) k, j_g (jet_of a) k = gr (u2hg a) k).
  { intros a k. unfold gr, hg_diag_get, mget. cbn [jet_of j_g]. destruct (mfind k (diagmap (u2hg a))); reflexivity. }
  intros i j NE. rewrite !GJ. cbn [jet_of j_h]. rewrite (proj2 (Z.eqb_neq i j)) by exact NE.
  destruct (Z.lt_total i j) as [L|[L|L]]; [|contradiction|].
  - rewrite (Z.min_l i j), (Z.max_r i j) by lia. exact (T i j L).
  - rewrite (Z.min_r i j), (Z.max_l i j) by lia. assert (Q := T j i L). unfold dft, th in Q. cbn in Q |- *. rewrite Q. ring.
Qed.

(** All that is stored, as the result of second-order propagation with other derivatives. *)
Lemma C35_stored_partial_proof : forall eig (w : world2 RN), reachable2 eig w ->
  forall (u v : nat) f fx fy fyy fxy, u <> v ->
  let x := jet_of (w2_var w u) in let y := jet_of (w2_var w v) in fyy = 0 \/ single y ->
  exists z', u2_binary_assign (w2_var w u) (w2_var w v) f fx fy 0 fyy fxy = Ret z' /\
    jet_eq (jet_of z') (jet_binary x y f (1 + fx) fy 0 (fyy + 2 * fy * fxy) ((1 + fx) * fxy)).
Proof.
  intros eig w HR u v f fx fy fyy fxy UV x y CY.
  destruct (C35_gradient_and_diagonal_proof eig w HR u v f fx fy 0 fyy fxy UV) as (z & E & M & D & G & H).
  destruct (C35_mixed_partial_proof eig w HR u v f fx fy fyy fxy UV CY) as (z1 & E1 & T). cbv zeta in *.
  rewrite E in E1. injection E1 as <-. exists z. split; [exact E|]. fold x y in M, D, G, H, T.
  split; [exact M|]. split; [exact D|]. split.
  - intro i. rewrite G. cbn [jet_binary j_g]. ring.
  - intros i j. cbn [jet_binary j_h]. destruct (Z.eq_dec i j) as [->|NE].
    + rewrite H, G. field.
    + rewrite T by exact NE. rewrite !G. field.
Qed.

(** ** The same object as both arguments: the two iterators move together *)
Section SelfT.
  Variables fx fy : R.
  Lemma self_tri n : forall (vs : list (visit RN)) it0 (x : hgR) fuel, (length vs <= n)%nat -> (n < fuel)%nat ->
    chain hess_next hess_visit it0 vs -> ahead it0 -> skipkey it0 -> it_skip it0 = true -> srt x -> at_more x it0 ->
    oncep vs -> List.Forall below_max vs ->
    exists x', self_merge fuel fx fy 0 0 x (pos_of it0) (pos_of it0) = Ret x' /\ srt x' /\
      forall q, fst q <> snd q -> th x' q = if existsb (vis q) vs then option_map (Rmult ((1 + fx) * (1 + fy))) (th x q) else th x q.
  Proof.
    induction n as [|n IH]; intros vs it0 x fuel Ln Lf CH A SK Hs Sx AM OV BV;
      (destruct fuel as [|fuel]; [lia|]); cbn [self_merge]; cbv zeta; rewrite (more_at _ _ AM).
    { destruct vs; [|cbn in Ln; lia]. inversion CH; subst. rewrite H. cbn [negb andb].
      exists x. split; [reflexivity|]. split; [exact Sx|]. reflexivity. }
    inversion CH as [it E Ea Eb|it v0 it' vs' E V X CH' Ea Eb]; subst; rewrite E; cbn [negb andb bind].
    { exists x. split; [reflexivity|]. split; [exact Sx|]. reflexivity. }
    assert (EQ := AM E). destruct (asn_x_ok fx 0 x it0 v0 Sx EQ A V) as (v & x1 & V1 & I1 & X1 & S1 & K1 & _).
    assert (T1 := asn_x_tri fx x it0 v0 v x1 Sx E EQ A SK Hs V V1 X1).
    rewrite V1. cbn [bind]. rewrite I1. inversion BV as [|? ? B1 B2]; subst.
    unfold pleb, peqb. assert (KR : kcmp (vid v0) (vid v0) = Eq) by (apply kcmp_eq; reflexivity). rewrite KR. cbn [negb]. rewrite X1. cbn [bind].
    destruct (asn_x_ok fy 0 x1 it0 v0 S1 K1 A V) as (v2 & x2 & V2 & I2 & X2 & S2 & K2 & _).
    assert (T2 := asn_x_tri fy x1 it0 v0 v2 x2 S1 E K1 A SK Hs V V2 X2).
    unfold self_y. rewrite V2. cbn [bind]. rewrite V2. cbn [bind]. rewrite X2. cbn [bind].
    destruct (next_at x2 it0 it' S2 K2 X) as (N1 & AM'). rewrite N1. cbn [bind].
    assert (A' := ahead_next _ _ A X). assert (SK' := skipkey_next _ _ A X). assert (Hs' : it_skip it' = true) by (rewrite (skip_next _ _ X); exact Hs).
    destruct (IH vs' it' x2 fuel ltac:(cbn in *; lia) ltac:(lia) CH' A' SK' Hs' S2 AM' (oncep_tl _ _ OV) B2) as (x' & M & S' & G').
    exists x'. split; [exact M|]. split; [exact S'|]. intros q Hq. rewrite G', T2, T1 by exact Hq. cbn [existsb].
    rewrite <- visq. destruct (vis q v0) eqn:Q; cbn [orb]; [|reflexivity].
    rewrite (exists_filter _ _ (oncep_hd _ _ _ OV Q)). destruct (th x q); cbn [option_map]; [f_equal; ring|reflexivity].
  Qed.
End SelfT.

Lemma hhess_gr i j f (x x' : hgR) : srt x -> hg_hhess i j f x = Ret x' -> srt x' /\ forall k, gr x' k = gr x k.
Proof.
  intros Sx E. unfold hg_hhess in E. destruct (i =? j)%Z; cbn [negb] in E.
  - injection E as <-. split; [split; [cbn; apply msorted_mupd, Sx|apply Sx]|]. intro k. apply (gr_dhh x i (fun d => f (dhh d)) k Sx).
  - unfold hg_tri in E. destruct (assert_ _) as [[]| | |] in E; cbn [bind] in E; try discriminate. injection E as <-.
    split; [split; [apply Sx|cbn; apply msorted_mupd, Sx]|]. reflexivity.
Qed.
Lemma self_row_eq hxy (y : hgR) idi js : forall x : hgR, srt x -> (forall k, gr x k = gr y k) ->
  self_row hxy idi js x = asn_cross_row hxy y idi js x /\
  forall x', self_row hxy idi js x = Ret x' -> srt x' /\ forall k, gr x' k = gr y k.
Proof.
  induction js as [|j js IH]; intros x Sx G; cbn [self_row asn_cross_row].
  - split; [reflexivity|]. intros x' [= <-]. auto.
  - cbv zeta. assert (Gi := G idi). assert (Gj := G j). unfold gr in Gi, Gj. rewrite <- Gi, <- Gj.
    match goal with |- context [hg_hhess idi j ?f x] => destruct (hg_hhess idi j f x) as [x1| | |] eqn:E end; cbn [bind]; try (split; [reflexivity|discriminate]).
    destruct (hhess_gr _ _ _ _ _ Sx E) as [S1 G1]. apply IH; [exact S1|]. intro k. now rewrite G1.
Qed.
Lemma self_cross_eq hxy (y : hgR) is : forall x : hgR, srt x -> (forall k, gr x k = gr y k) -> self_cross hxy is x = asn_cross hxy y is x.
Proof.
  induction is as [|i is IH]; intros x Sx G; cbn [self_cross asn_cross]; [reflexivity|].
  destruct (self_row_eq hxy y i (i :: is) x Sx G) as [E K]. rewrite <- E.
  destruct (self_row hxy i (i :: is) x) as [x1| | |] eqn:E1; cbn [bind]; try reflexivity.
  destruct (K x1 eq_refl) as [S1 G1]. now apply IH.
Qed.

Lemma self_assign_tri (x : ureal2 RN) f fx fy fxy z : hg_ok (u2hg x) -> kbelow (u2hg x) ->
  u2_self_assign x f fx fy (@n0 RN) (@n0 RN) fxy = Ret z ->
  forall i j, (i < j)%Z ->
    dft (th (u2hg z) (i, j)) = (1 + fx) * (1 + fy) * dft (th (u2hg x) (i, j)) + fxy * (gr (u2hg z) i * gr (u2hg z) j).
Proof.
  intros OX KX E i j L. unfold u2_self_assign in E. cbv zeta in E.
  assert (H0 : (@n0 RN / @nofZ RN 2)%num = 0) by (change (0 / 2 = 0); lra).
  rewrite !H0 in E. set (hxy := (fxy / @nofZ RN 2)%num) in *. assert (HX : hxy = fxy / 2) by reflexivity. clearbody hxy.
  assert (Z0 : neqb (n := RN) 0 n0 = true) by (apply Reqb_true; reflexivity). rewrite !Z0 in E.
  destruct (chain_of (u2hg x) true OX) as (vs & C & EV & VX).
  assert (XX := skip_exact _ _ OX EV). assert (L1 := walk_length _ _ _ _ _ EV).
  set (n := (2 * walk_fuel (u2hg x))%nat) in *.
  assert (Sx : srt (u2hg x)) by (destruct OX as (A & B & _); split; assumption).
  assert (FU : (length vs < n * n)%nat).
  { assert (2 <= n)%nat by (unfold n, walk_fuel; lia). assert (length vs < n)%nat by (unfold n; lia). nia. }
  assert (AM : at_more (u2hg x) (hess_begin (u2hg x) true)).
  { intros _. rewrite at_pos; [reflexivity|exact Sx|]. unfold inside, hess_begin. cbn [it_min it_max it_tri]. exact (conj (suf_refl _) (conj (suf_refl _) (suf_refl _))). }
  destruct (self_tri fx fy (length vs) vs (hess_begin (u2hg x) true) (u2hg x) (n * n) ltac:(lia) FU C
    (ahead_begin _ _ OX) (skipkey_begin _ _) eq_refl Sx AM (oncep_of _ _ VX XX) (visits_below _ _ KX VX)) as (r & M & Sr & T).
  rewrite M in E. cbn [bind] in E.
  assert (TR : dft (th r (i, j)) = (1 + fx) * (1 + fy) * dft (th (u2hg x) (i, j))).
  { rewrite T by (cbn; lia). specialize (XX i j ltac:(lia)). unfold th.
    destruct (mfind (i, j) (trimap (u2hg x))) as [t|]; [|destruct (existsb _ _); cbn; ring].
    assert (Q : existsb (vis (i, j)) vs = true) by (apply existsb_exists; eexists; apply filter_In; rewrite XX; now left).
    rewrite Q. reflexivity. }
  destruct (neqb hxy n0) eqn:QZ; cbn [negb bind] in E.
  - injection E as <-. cbn [u2hg]. apply Reqb_true in QZ. change (@n0 RN) with 0 in QZ. rewrite TR. assert (fxy = 0) by lra. subst fxy. ring.
  - rewrite (self_cross_eq hxy r _ r Sr (fun _ => eq_refl)) in E.
    destruct (asn_cross hxy r (map fst (diagmap r)) r) as [r2| | |] eqn:EC; cbn [bind] in E; try discriminate.
    injection E as <-. cbn [u2hg].
    destruct (cross_tri hxy r (map fst (diagmap r)) r r2 Sr) as (_ & G2 & T2); [|exact EC|].
    { destruct Sr as [SD _]. clear - SD. unfold msorted in SD.
      induction SD as [|k l SS IH F]; constructor; [exact IH|]. rewrite Forall_forall in *. intros q Hq. apply klt_lt. auto. }
    rewrite T2 by exact L. rewrite !G2, <- TR.
    assert (NK : forall k, existsb (Z.eqb k) (map fst (diagmap r)) = false -> gr r k = 0).
    { intros k Q. assert (NI : ~ In k (map fst (diagmap r))).
      { intro I. rewrite (proj2 (existsb_exists (Z.eqb k) (map fst (diagmap r)))) in Q; [discriminate|]. exists k. split; [exact I|apply Z.eqb_refl]. }
      unfold gr, hg_diag_get, mget. now rewrite (proj2 (mfind_None_iff k (diagmap r) (proj1 Sr)) NI). }
    unfold mixed. assert (HF : fxy = 2 * hxy) by lra. rewrite HF.
    destruct (existsb (Z.eqb i) (map fst (diagmap r))) eqn:Qi; cbn [andb].
    + destruct (existsb (Z.eqb j) (map fst (diagmap r))) eqn:Qj; [cbn [dft]; ring|]. rewrite (NK _ Qj). ring.
    + rewrite (NK _ Qi). ring.
Qed.

Lemma C35_same_object_stored_partial_proof : forall eig (w : world2 RN), reachable2 eig w ->
  forall (u : nat) f fx fy fxy,
  let k := (1 + fx) * (1 + fy) in
  exists z', u2_self_assign (w2_var w u) f fx fy 0 0 fxy = Ret z' /\
    jet_eq (jet_of z') (jet_unary (jet_of (w2_var w u)) f k (2 * fxy * k * k)).
Proof.
  intros eig w HR u f fx fy fxy k. destruct (reach_ok eig w HR u) as [OX KX].
  destruct (C35_same_object_proof eig w HR u f fx fy 0 0 fxy) as (z & E & M & D & G & H & _). cbv zeta in *. exists z. split; [exact E|].
  assert (T := self_assign_tri _ _ _ _ _ _ OX KX E).
  assert (GJ : forall (a : ureal2 RN) l, j_g (jet_of a) l = gr (u2hg a) l).
  { intros a l. unfold gr, hg_diag_get, mget. cbn [jet_of j_g]. destruct (mfind l (diagmap (u2hg a))); reflexivity. }
  assert (HT : forall i j, (i < j)%Z -> j_h (jet_of z) i j = k * j_h (jet_of (w2_var w u)) i j + fxy * (j_g (jet_of z) i * j_g (jet_of z) j)).
  { intros i j L. rewrite !GJ. cbn [jet_of j_h]. rewrite (proj2 (Z.eqb_neq i j)) by lia. rewrite (Z.min_l i j), (Z.max_r i j) by lia. exact (T i j L). }
  assert (SY : forall (a : ureal2 RN) i j, j_h (jet_of a) i j = j_h (jet_of a) j i).
  { intros a i j. cbn [jet_of j_h]. rewrite (Z.eqb_sym j i), (Z.min_comm j i), (Z.max_comm j i).
    destruct (Z.eqb_spec i j) as [->|_]; reflexivity. }
  split; [exact M|]. split; [exact D|]. split.
  - intro i. rewrite G. reflexivity.
  - intros i j. unfold jet_unary. cbn [j_h]. destruct (Z.lt_total i j) as [L|[->|L]].
    + rewrite (HT i j L), !G. unfold k. field.
    + rewrite H, !G. unfold k. field.
    + rewrite (SY z i j), (SY (w2_var w u) i j), (HT j i L), !G. unfold k. field.
Qed.
