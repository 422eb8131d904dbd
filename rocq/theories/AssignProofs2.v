(** * AssignProofs2: what binary_assign of UReal2 does to gradient and diagonal second derivatives *)

From Coq Require Import List ZArith Bool Sorted Lia.
From Verif Require Import Base Num Map HessGrad UReal2 HessProofs U2Facts U2World AssignProofs.
Import ListNotations.

Section Assign2.
  Context {N : Num}.
  Local Open Scope num_scope.
  Implicit Types x y r : hessgrad N.
  Implicit Types it : iter N.
  Implicit Types v : visit N.

  Lemma er_keep x x' p :
    map fst (map_at (pmin p) (diagmap x')) = map fst (map_at (pmin p) (diagmap x)) ->
    map fst (map_at (pmax p) (diagmap x')) = map fst (map_at (pmax p) (diagmap x)) ->
    map fst (map_at (ptri p) (trimap x')) = map fst (map_at (ptri p) (trimap x)) ->
    er (iter_at x' p) = er (iter_at x p).
  Proof. intros. apply er_eq. unfold iter_at. cbn [it_min it_max it_tri it_skip]. auto. Qed.
  Lemma keep_diag x i f p : srt x ->
    In i (map fst (diagmap x)) \/ ((forall k, pmin p = Some k -> (i < k)%Z) /\ (forall k, pmax p = Some k -> (i < k)%Z)) ->
    er (iter_at (hg_diag i f x) p) = er (iter_at x p) /\ srt (hg_diag i f x).
  Proof.
    intros [SD ST] H. split.
    - apply er_keep; unfold hg_diag; cbn [diagmap trimap]; [| |reflexivity]; unfold mupd; apply at_mset; auto;
        (destruct H as [H|[H1 H2]]; [now left|right]); intros k E; unfold klt; cbn; apply Z.compare_lt_iff; auto.
    - split; [now apply msorted_mupd|exact ST].
  Qed.
  Lemma keep_tri x i j f p : srt x -> (i < j)%Z ->
    In (i, j) (map fst (trimap x)) \/ (forall k, ptri p = Some k -> klt (i, j) k) ->
    exists x', hg_tri i j f x = Ret x' /\ diagmap x' = diagmap x /\ er (iter_at x' p) = er (iter_at x p) /\ srt x'.
  Proof.
    intros [SD ST] L H. unfold hg_tri. apply Z.ltb_lt in L. rewrite L. cbn [assert_ bind].
    eexists. split; [reflexivity|]. cbn [diagmap]. split; [reflexivity|]. split.
    - apply er_keep; cbn [diagmap trimap]; [reflexivity|reflexivity|]. unfold mupd. apply at_mset; auto.
    - split; [exact SD|]. cbn. now apply msorted_mupd.
  Qed.

  (** ** Reading through the iterator *)
  Lemma suf_same_head (i : Z) (e d : diag N) mx mn : msorted ((i, d) :: mn) -> suf ((i, e) :: mx) ((i, d) :: mn) ->
    (i, e) :: mx = (i, d) :: mn.
  Proof.
    intros SM [[|q p] E]; [exact (eq_sym E)|]. cbn in E. injection E as <- E.
    destruct (msorted_inv _ _ _ SM) as [_ L]. exfalso.
    assert (H : klt i i). { apply L. rewrite E, map_app. apply in_or_app. right. now left. }
    unfold klt in H. rewrite kcmp_refl in H. discriminate.
  Qed.
  Lemma visit_at x p it0 v0 : srt x -> er (iter_at x p) = er it0 -> ahead it0 -> hess_visit it0 = Ret v0 ->
    exists v, hess_visit (iter_at x p) = Ret v /\ vid v = vid v0 /\ (vid1 v <= vid2 v)%Z /\
      mfind (vid1 v) (diagmap x) = Some (vd1 v) /\ mfind (vid2 v) (diagmap x) = Some (vd2 v) /\
      (vid1 v = vid2 v -> vval v = dhh (vd1 v)).
  Proof.
    intros [SD ST] E (SM & _ & SX & _ & _) V. apply er_eq in E as (E1 & E2 & E3 & E4).
    assert (Le : forall A B (a b : list (A * B)), map fst a = map fst b -> length a = length b)
      by (intros A B a b Q; apply (f_equal (@length A)) in Q; now rewrite !map_length in Q).
    unfold hess_visit in *. remember (iter_at x p) as it eqn:Eit.
    assert (Ha : it_min it = map_at (pmin p) (diagmap x)) by (now subst it).
    assert (Hb : it_max it = map_at (pmax p) (diagmap x)) by (now subst it).
    clear Eit. destruct it as [mn mx tr sk]; destruct it0 as [mn0 mx0 tr0 sk0]. cbn [it_min it_max it_tri it_skip] in *. subst sk0.
    destruct mn0 as [|[i d1] mn0]; [discriminate|]. destruct mx0 as [|[j d2] mx0]; [discriminate|].
    destruct mn as [|[i' d1'] mn]; [discriminate|]. destruct mx as [|[j' d2'] mx]; [discriminate|].
    cbn [map fst] in E1, E2. injection E1 as -> E1. injection E2 as -> E2.
    assert (Q1 : it_eqb ((i, d1') :: mn) ((j, d2') :: mx) = it_eqb ((i, d1) :: mn0) ((j, d2) :: mx0)).
    { unfold it_eqb. cbn [length]. now rewrite (Le _ _ _ _ E1), (Le _ _ _ _ E2). }
    assert (Q2 : at_end tr = at_end tr0) by (destruct tr as [|[]]; destruct tr0 as [|[]]; cbn in E3; congruence || reflexivity).
    rewrite Q1, Q2. destruct (assert_ _) as [[]| | |]; cbn [bind] in *; try discriminate.
    assert (Lij : (i <= j)%Z).
    { assert (H := suf_keys _ _ j SX (or_introl eq_refl)). cbn in H. destruct H as [<-|H]; [lia|].
      destruct (msorted_inv _ _ _ SM) as [_ L]. apply L in H. apply klt_lt in H. lia. }
    assert (Ei : mfind i (diagmap x) = Some d1') by (eapply at_head; [exact SD|symmetry; exact Ha]).
    assert (Ej : mfind j (diagmap x) = Some d2') by (eapply at_head; [exact SD|symmetry; exact Hb]).
    assert (Q3 : i = j -> it_eqb ((i, d1) :: mn0) ((j, d2) :: mx0) = true).
    { intros <-. rewrite (suf_same_head _ _ _ _ _ SM SX). unfold it_eqb. apply Nat.eqb_refl. }
    destruct (it_eqb ((i, d1) :: mn0) ((j, d2) :: mx0)) eqn:Q.
    - cbn [bind] in *. injection V as <-. eexists. split; [reflexivity|]. cbn [vid vid1 vid2 vd1 vd2 vval]. repeat split; auto.
    - destruct tr0 as [|[k t] tr0]; destruct tr as [|[k' t'] tr]; try discriminate.
      + destruct sk; cbn [bind] in *; [discriminate|]. injection V as <-. eexists. split; [reflexivity|].
        cbn [vid vid1 vid2 vd1 vd2 vval]. repeat split; auto. intro H. apply Q3 in H. discriminate.
      + cbn in E3. injection E3 as -> E3.
        destruct sk; cbn [bind] in *; injection V as <-; eexists; (split; [reflexivity|]);
          cbn [vid vid1 vid2 vd1 vd2 vval]; repeat split; auto; intro H; apply Q3 in H; discriminate.
  Qed.

  (** ** One step *)
  Definition at_more (x : hessgrad N) it0 : Prop := it_more it0 = true -> er (iter_at x (pos_of it0)) = er it0.
  Definition cX (fx hxx : N) (d : diag N) : diag N :=
    let h := dhh d + hxx * dgrad d * dgrad d in mkD (dgrad d + fx * dgrad d) (h + fx * h) (dmom d).
  Definition diag_of v : bool := (vid1 v =? vid2 v)%Z.

  Lemma heads it v : hess_visit it = Ret v -> exists d1 mn d2 mx, it_min it = (vid1 v, d1) :: mn /\ it_max it = (vid2 v, d2) :: mx.
  Proof.
    unfold hess_visit. destruct (it_min it) as [|[i d1] mn]; [discriminate|]. destruct (it_max it) as [|[j d2] mx]; [discriminate|].
    intro H. repeat (match goal with H : bind ?o _ = _ |- _ => destruct o as [?| | |]; cbn [bind] in H; try discriminate end).
    injection H as <-. cbn. eauto 10.
  Qed.
  Lemma pos_tri x it0 v0 : srt x -> er (iter_at x (pos_of it0)) = er it0 -> ahead it0 -> hess_visit it0 = Ret v0 ->
    forall q, ~ klt (vid v0) q -> In q (map fst (trimap x)) \/ (forall k, ptri (pos_of it0) = Some k -> klt q k).
  Proof.
    intros Sx E (SM & ST & SX & HK & HB) V q L. destruct (heads _ _ V) as (d1 & mn & d2 & mx & E1 & E2).
    specialize (HB _ _ _ _ _ _ E1 E2). unfold pos_of; cbn [ptri].
    destruct (it_tri it0) as [|[k t] tr] eqn:Et; [right; intros k H; discriminate|].
    specialize (HB k (or_introl eq_refl)). assert (X := not_klt_trans _ _ _ L HB).
    destruct (kcmp q k) eqn:C.
    - apply kcmp_eq in C. subst q. left. apply er_eq in E as (_ & _ & E3 & _). rewrite Et in E3. cbn [map fst] in E3.
      eapply suf_keys; [apply (suf_from (ptri (pos_of it0)))|]. unfold iter_at in E3; cbn [it_tri] in E3. rewrite E3. now left.
    - right. intros k' [= <-]. exact C.
    - exfalso. apply X. now apply kcmp_gt.
  Qed.

  Lemma asn_x_ok fx hxx x it0 v0 : srt x -> er (iter_at x (pos_of it0)) = er it0 -> ahead it0 -> hess_visit it0 = Ret v0 ->
    exists v x1, hess_visit (iter_at x (pos_of it0)) = Ret v /\ vid v = vid v0 /\
      asn_x fx hxx (pos_of it0) v x = Ret x1 /\ srt x1 /\ er (iter_at x1 (pos_of it0)) = er it0 /\
      (forall i, mfind i (diagmap x1) = if keqb (i, i) (vid v0) then option_map (cX fx hxx) (mfind i (diagmap x)) else mfind i (diagmap x)) /\
      (forall i, In i (map fst (diagmap x1)) <-> In i (map fst (diagmap x))).
  Proof.
    intros Sx E A V. destruct (visit_at _ _ _ _ Sx E A V) as (v & V1 & I1 & L1 & F1 & F2 & D1).
    exists v. unfold asn_x. assert (I1' := I1). unfold vid in I1'. injection I1' as Ia Ib.
    assert (P : ~ klt (vid v0) (vid1 v, vid2 v)). { fold (vid v). rewrite I1. unfold klt. rewrite kcmp_refl. discriminate. }
    assert (IN : In (vid1 v) (map fst (diagmap x))) by (apply mfind_In in F1; now apply (in_map fst) in F1).
    destruct (Z.eq_dec (vid1 v) (vid2 v)) as [Q|Q].
    - (* diagonal *)
      unfold hg_hhess at 1. rewrite Q, Z.eqb_refl. cbn [negb bind]. rewrite <- Q.
      set (f1 := fun d : diag N => mkD (dgrad d) (dhh d + hxx * dgrad (vd1 v) * dgrad (vd2 v)) (dmom d)).
      destruct (keep_diag x (vid1 v) f1 (pos_of it0) Sx (or_introl IN)) as [K1 S1].
      rewrite E in K1. destruct (visit_at _ _ _ _ S1 K1 A V) as (w & W1 & J1 & _ & G1 & G2 & D2).
      rewrite W1. cbn [bind]. assert (J1' := J1). unfold vid in J1'. injection J1' as Ja Jb.
      assert (Qw : vid1 w = vid1 v) by congruence. assert (Qw2 : vid2 w = vid1 v) by congruence.
      specialize (D2 ltac:(congruence)). rewrite Qw, Qw2 in *.
      unfold hg_hhess. rewrite Z.eqb_refl. cbn [negb bind].
      assert (E2 : vd2 v = vd1 v) by (rewrite <- Q in F2; congruence).
      unfold hg_diag in G1 at 1. cbn [diagmap] in G1. rewrite find_mupd in G1 by apply Sx. rewrite keqb_refl in G1.
      unfold mget in G1. rewrite F1 in G1. injection G1 as G1.
      eexists. split; [exact V1|]. split; [exact I1|]. split; [reflexivity|].
      set (f2 := fun d : diag N => mkD (dgrad d) (dhh d + fx * vval w) (dmom d)).
      set (f3 := fun d : diag N => mkD (dgrad d + fx * dgrad (vd1 w)) (dhh d) (dmom (vd1 w))).
      assert (IN1 : In (vid1 v) (map fst (diagmap (hg_diag (vid1 v) f1 x)))) by (apply keys_mupd; now left).
      destruct (keep_diag (hg_diag (vid1 v) f1 x) (vid1 v) f2 (pos_of it0) S1 (or_introl IN1)) as [K2 S2].
      assert (IN2 : In (vid1 v) (map fst (diagmap (hg_diag (vid1 v) f2 (hg_diag (vid1 v) f1 x))))) by (apply keys_mupd; now left).
      destruct (keep_diag _ (vid1 v) f3 (pos_of it0) S2 (or_introl IN2)) as [K3 S3].
      split; [exact S3|]. split; [rewrite K3, K2; exact K1|]. split.
      + intro i. unfold hg_diag. cbn [diagmap]. rewrite !mupd_mupd, find_mupd by apply Sx.
        rewrite <- I1. unfold vid. rewrite <- Q. destruct (Z.eq_dec i (vid1 v)) as [->|NE].
        * rewrite !keqb_refl. unfold mget. rewrite F1. cbn [option_map]. f_equal. unfold cX, f3, f2.
          rewrite D2, <- G1. unfold f1. cbn [dgrad dhh dmom]. rewrite E2. reflexivity.
        * rewrite !(proj2 (keqb_neq _ _)) by congruence. reflexivity.
      + intro i. unfold hg_diag. cbn [diagmap]. rewrite !keys_mupd. split; [|tauto]. intros [->|[->|[->|H]]]; auto.
    - (* off-diagonal *)
      unfold hg_hhess at 1. rewrite (proj2 (Z.eqb_neq _ _) Q). cbn [negb].
      destruct (keep_tri x (vid1 v) (vid2 v) (fun h => h + hxx * dgrad (vd1 v) * dgrad (vd2 v)) (pos_of it0) Sx ltac:(lia)
                  (pos_tri _ _ _ Sx E A V _ P)) as (x1 & T1 & M1 & K1 & S1).
      rewrite T1. cbn [bind]. rewrite E in K1. destruct (visit_at _ _ _ _ S1 K1 A V) as (w & W1 & J1 & _).
      rewrite W1. cbn [bind]. assert (J1' := J1). unfold vid in J1'. injection J1' as Ja Jb.
      assert (Qw : vid1 w = vid1 v) by congruence. assert (Qw2 : vid2 w = vid2 v) by congruence. rewrite Qw, Qw2.
      unfold hg_hhess. rewrite (proj2 (Z.eqb_neq _ _) Q). cbn [negb].
      destruct (keep_tri x1 (vid1 v) (vid2 v) (fun h => h + fx * vval w) (pos_of it0) S1 ltac:(lia)
                  (pos_tri _ _ _ S1 K1 A V _ P)) as (x2 & T2 & M2 & K2 & S2).
      rewrite T2. cbn [bind]. exists x2. split; [exact V1|]. split; [exact I1|]. split; [reflexivity|]. split; [exact S2|].
      split; [rewrite K2; exact K1|]. rewrite M2, M1. split; [|reflexivity]. intro i.
      rewrite <- I1. unfold vid. rewrite (proj2 (keqb_neq _ _)) by congruence. reflexivity.
  Qed.

  Definition cY (fy hyy : N) v (d : diag N) (m : option (moms N)) : diag N :=
    mkD (dgrad d + fy * dgrad (vd1 v)) (dhh d + hyy * dgrad (vd1 v) * dgrad (vd2 v) + fy * vval v) m.
  (** the write of y, at or before the pair of the iterator *)
  Lemma asn_y_ok fy hyy v (fresh : bool) x it0 : srt x -> at_more x it0 -> ahead it0 -> (vid1 v <= vid2 v)%Z ->
    (it_more it0 = true -> exists v0, hess_visit it0 = Ret v0 /\ ~ klt (vid v0) (vid v)) ->
    exists x1, asn_y fy hyy v fresh x = Ret x1 /\ srt x1 /\ at_more x1 it0 /\
      (forall i, mfind i (diagmap x1) = if keqb (i, i) (vid v)
         then Some (let d := mget diag0 i (diagmap x) in cY fy hyy v d (if fresh then dmom (vd1 v) else dmom d))
         else mfind i (diagmap x)).
  Proof.
    intros Sx AM A L HV.
    (* generic writes *)
    assert (WD : forall z f, srt z -> at_more z it0 -> vid1 v = vid2 v -> srt (hg_diag (vid1 v) f z) /\ at_more (hg_diag (vid1 v) f z) it0).
    { intros z f Sz AMz Q. split; [split; [now apply msorted_mupd; apply Sz|apply Sz]|]. intro M. specialize (AMz M).
      destruct (HV M) as (v0 & V & K). rewrite <- AMz.
      apply keep_diag; [exact Sz|]. destruct (heads _ _ V) as (d1 & mn & d2 & mx & E1 & E2).
      unfold vid in K. rewrite klt_ZZ in K. cbn in K. rewrite <- Q in K.
      assert (E := AMz). apply er_eq in E as (Ea & _). unfold iter_at in Ea; cbn [it_min] in Ea. rewrite E1 in Ea.
      assert (IN : In (vid1 v0) (map fst (diagmap z))).
      { eapply suf_keys; [apply (suf_from (pmin (pos_of it0)))|]. rewrite Ea. now left. }
      destruct A as (SM & _ & SX & _ & _).
      assert (Lv : (vid1 v0 <= vid2 v0)%Z).
      { assert (H : In (vid2 v0) (map fst (it_min it0))) by (eapply suf_keys; [exact SX|rewrite E2; now left]).
        rewrite E1 in H, SM. cbn in H. destruct H as [<-|H]; [lia|].
        destruct (msorted_inv _ _ _ SM) as [_ F]. apply F in H. apply klt_lt in H. lia. }
      destruct (Z.eq_dec (vid1 v) (vid1 v0)) as [->|NE]; [now left|right].
      unfold pos_of; cbn [pmin pmax]. rewrite E1, E2. cbn [key_of]. split; intros k [= <-]; lia. }
    assert (WT : forall z f, srt z -> at_more z it0 -> vid1 v <> vid2 v ->
      exists z', hg_tri (vid1 v) (vid2 v) f z = Ret z' /\ diagmap z' = diagmap z /\ srt z' /\ at_more z' it0).
    { intros z f Sz AMz Q. destruct (it_more it0) eqn:M.
      - specialize (AMz M). destruct (HV eq_refl) as (v0 & V & K).
        destruct (keep_tri z (vid1 v) (vid2 v) f (pos_of it0) Sz ltac:(lia) (pos_tri _ _ _ Sz AMz A V (vid1 v, vid2 v) K)) as (z' & T & D & K' & S').
        exists z'. split; [exact T|]. split; [exact D|]. split; [exact S'|]. intros _. now rewrite K'.
      - unfold hg_tri. assert (L' : (vid1 v <? vid2 v)%Z = true) by (apply Z.ltb_lt; lia). rewrite L'. cbn [assert_ bind].
        eexists. split; [reflexivity|]. cbn [diagmap]. split; [reflexivity|]. split; [split; [apply Sz|apply msorted_mupd; apply Sz]|].
        intro M'. congruence. }
    unfold asn_y. destruct (Z.eq_dec (vid1 v) (vid2 v)) as [Q|Q].
    - unfold hg_hhess. rewrite <- Q, Z.eqb_refl. cbn [negb bind].
      assert (G : forall z, srt z -> at_more z it0 -> exists x1,
        Ret (hg_diag (vid1 v) (fun d => mkD (dgrad d + fy * dgrad (vd1 v)) (dhh d) (dmom d))
          (hg_diag (vid1 v) (fun d => mkD (dgrad d) (dhh d + hyy * dgrad (vd1 v) * dgrad (vd2 v) + fy * vval v) (dmom d)) z)) = Ret x1 /\
        srt x1 /\ at_more x1 it0 /\
        (forall i, mfind i (diagmap x1) = if keqb (i, i) (vid v)
           then Some (let d := mget diag0 i (diagmap z) in cY fy hyy v d (dmom d)) else mfind i (diagmap z))).
      { intros z Sz AMz. eexists. split; [reflexivity|].
        destruct (WD z (fun d => mkD (dgrad d) (dhh d + hyy * dgrad (vd1 v) * dgrad (vd2 v) + fy * vval v) (dmom d)) Sz AMz Q) as [S1 A1].
        destruct (WD _ (fun d => mkD (dgrad d + fy * dgrad (vd1 v)) (dhh d) (dmom d)) S1 A1 Q) as [S2 A2].
        split; [exact S2|]. split; [exact A2|]. intro i. unfold hg_diag. cbn [diagmap]. rewrite mupd_mupd, find_mupd by apply Sz.
        unfold vid. rewrite <- Q. destruct (Z.eq_dec i (vid1 v)) as [->|NE].
        - rewrite !keqb_refl. reflexivity.
        - rewrite !(proj2 (keqb_neq _ _)) by congruence. reflexivity. }
      destruct fresh; cbn [bind].
      + destruct (WD x (fun d => mkD (dgrad d) (dhh d) (dmom d)) Sx AM Q) as [S1 A1].
        destruct (WD _ (fun d => mkD (dgrad d) (dhh d) (dmom (vd1 v))) S1 A1 Q) as [S2 A2].
        destruct (G _ S2 A2) as (x1 & E & S3 & A3 & F). exists x1. split; [exact E|]. split; [exact S3|]. split; [exact A3|].
        intro i. rewrite F. unfold hg_diag. cbn [diagmap]. rewrite mupd_mupd.
        unfold vid. rewrite <- Q. destruct (Z.eq_dec i (vid1 v)) as [->|NE].
        * rewrite !keqb_refl. cbv zeta. rewrite mget_mupd by apply Sx. destruct (keq_dec _ _) as [_|NE]; [reflexivity|congruence].
        * rewrite !(proj2 (keqb_neq _ _)) by congruence. rewrite find_mupd by apply Sx.
          rewrite (proj2 (keqb_neq _ _)) by congruence. reflexivity.
      + apply (G x Sx AM).
    - unfold hg_hhess. rewrite (proj2 (Z.eqb_neq _ _) Q). cbn [negb].
      assert (G : forall z, srt z -> at_more z it0 -> exists x1,
        (r <- hg_tri (vid1 v) (vid2 v) (fun h => h + hyy * dgrad (vd1 v) * dgrad (vd2 v) + fy * vval v) z;; Ret r) = Ret x1 /\
        srt x1 /\ at_more x1 it0 /\ diagmap x1 = diagmap z).
      { intros z Sz AMz. destruct (WT z (fun h => h + hyy * dgrad (vd1 v) * dgrad (vd2 v) + fy * vval v) Sz AMz Q) as (z' & T & D & S' & A').
        exists z'. rewrite T. cbn [bind]. auto. }
      assert (R : exists z, (if fresh then r <- hg_tri (vid1 v) (vid2 v) (fun h => h) x;; Ret r else Ret x) = Ret z /\ srt z /\ at_more z it0 /\ diagmap z = diagmap x).
      { destruct fresh; [|exists x; auto]. destruct (WT x (fun h => h) Sx AM Q) as (z' & T & D & S' & A').
        exists z'. rewrite T. cbn [bind]. auto. }
      destruct R as (z & Ez & Sz & AMz & Dz). rewrite Ez. cbn [bind].
      destruct (G z Sz AMz) as (x1 & E & S1 & A1 & D1). exists x1. split; [exact E|]. split; [exact S1|]. split; [exact A1|].
      intro i. rewrite D1, Dz. unfold vid. rewrite (proj2 (keqb_neq _ _)) by congruence. reflexivity.
  Qed.

  (** ** The loop *)
  Definition gh x i : option (N * N) := option_map (fun d => (dgrad d, dhh d)) (mfind i (diagmap x)).
  Definition gX (fx hxx : N) (p : N * N) : N * N :=
    let h := snd p + hxx * fst p * fst p in (fst p + fx * fst p, h + fx * h).
  Definition gY (fy hyy : N) v (p : N * N) : N * N :=
    (fst p + fy * dgrad (vd1 v), snd p + hyy * dgrad (vd1 v) * dgrad (vd2 v) + fy * vval v).
  Definition dflt (c : option (N * N)) : N * N := match c with Some p => p | None => (n0, n0) end.
  Section Loop.
    Variables fx fy hxx hyy : N.
    Definition after (vs ys : list (visit N)) (i : Z) (c : option (N * N)) : option (N * N) :=
      let c1 := if existsb (vis (i, i)) vs then option_map (gX fx hxx) c else c in
      match filter (vis (i, i)) ys with [] => c1 | v :: _ => Some (gY fy hyy v (dflt c1)) end.
    Definition once (vs : list (visit N)) : Prop := forall i, (length (filter (vis (i, i)) vs) <= 1)%nat.
    Lemma once_tl v vs : once (v :: vs) -> once vs.
    Proof. intros H i. specialize (H i). cbn [filter] in H. destruct (vis _ v); cbn [length] in H; lia. Qed.
    Lemma once_hd v vs i : once (v :: vs) -> vis (i, i) v = true -> filter (vis (i, i)) vs = [].
    Proof. intros H E. specialize (H i). cbn [filter] in H. rewrite E in H. cbn [length] in H. destruct (filter _ vs); [reflexivity|cbn in H; lia]. Qed.
    Lemma exists_filter (f : visit N -> bool) vs : filter f vs = [] -> existsb f vs = false.
    Proof. induction vs as [|v vs IH]; [reflexivity|]. cbn. destruct (f v); [discriminate|exact IH]. Qed.
    Lemma vis_iff i v : vis (i, i) v = true <-> keqb (i, i) (vid v) = true.
    Proof. unfold vis. rewrite !keqb_eq. split; congruence. Qed.
    Lemma vis_eq i v : vis (i, i) v = keqb (i, i) (vid v).
    Proof. apply eq_true_iff_eq. apply vis_iff. Qed.

    Lemma after_x v vs ys i c : once (v :: vs) ->
      after (v :: vs) ys i c = after vs ys i (if vis (i, i) v then option_map (gX fx hxx) c else c).
    Proof.
      intro O. unfold after. cbn [existsb]. destruct (vis (i, i) v) eqn:E; cbn [orb].
      - rewrite (exists_filter _ _ (once_hd _ _ _ O E)). reflexivity.
      - reflexivity.
    Qed.
    Lemma after_y v vs ys i c : once (v :: ys) -> (vis (i, i) v = true -> existsb (vis (i, i)) vs = false) ->
      after vs (v :: ys) i c = after vs ys i (if vis (i, i) v then Some (gY fy hyy v (dflt c)) else c).
    Proof.
      intros O X. unfold after. cbn [filter]. destruct (vis (i, i) v) eqn:E; [|reflexivity].
      rewrite (once_hd _ _ _ O E), X by reflexivity. reflexivity.
    Qed.
    Lemma more_at x it0 : at_more x it0 -> it_more (iter_at x (pos_of it0)) = it_more it0.
    Proof.
      intro AM. destruct (it_more it0) eqn:E.
      - specialize (AM E). apply er_eq in AM as (E1 & E2 & _). unfold it_more in *.
        destruct (it_min it0) as [|]; [discriminate|]. destruct (it_max it0) as [|]; [discriminate|].
        destruct (it_min (iter_at x (pos_of it0))); [discriminate|]. destruct (it_max (iter_at x (pos_of it0))); [discriminate|]. reflexivity.
      - unfold it_more, iter_at, pos_of in *. cbn [it_min it_max pmin pmax].
        destruct (it_min it0) as [|[]]; [reflexivity|]. destruct (it_max it0) as [|[]]; [|discriminate].
        cbn [key_of map_at at_end negb]. now rewrite andb_false_r.
    Qed.

    Lemma max_after v : below_max v -> pleb pmaxid (vid v) = false /\ pleb (vid v) pmaxid = true /\ peqb pmaxid (vid v) = false.
    Proof.
      intro B. assert (G : kcmp pmaxid (vid v) = Gt) by (apply kcmp_gt; exact B). unfold pleb, peqb.
      unfold below_max, klt in B. now rewrite G, B.
    Qed.

    Lemma gh_x x x1 v0 : (forall i, mfind i (diagmap x1) = if keqb (i, i) (vid v0) then option_map (cX fx hxx) (mfind i (diagmap x)) else mfind i (diagmap x)) ->
      forall i, gh x1 i = if vis (i, i) v0 then option_map (gX fx hxx) (gh x i) else gh x i.
    Proof. intros H i. unfold gh. rewrite H, vis_eq. destruct (keqb _ _); [|reflexivity]. destruct (mfind i (diagmap x)); reflexivity. Qed.
    Lemma gh_y x x1 v (fresh : bool) : (forall i, mfind i (diagmap x1) = if keqb (i, i) (vid v)
         then Some (let d := mget diag0 i (diagmap x) in cY fy hyy v d (if fresh then dmom (vd1 v) else dmom d))
         else mfind i (diagmap x)) ->
      forall i, gh x1 i = if vis (i, i) v then Some (gY fy hyy v (dflt (gh x i))) else gh x i.
    Proof.
      intros H i. unfold gh. rewrite H, vis_eq. destruct (keqb _ _); [|reflexivity]. unfold mget.
      destruct (mfind i (diagmap x)); reflexivity.
    Qed.

    Lemma merge_ok n : forall vs ys it0 x fuel, (length vs + length ys <= n)%nat -> (n < fuel)%nat ->
      chain hess_next hess_visit it0 vs -> ahead it0 -> srt x -> at_more x it0 ->
      StronglySorted vle vs -> StronglySorted vle ys -> once vs -> once ys ->
      List.Forall below_max vs -> List.Forall below_max ys -> (forall v, In v ys -> (vid1 v <= vid2 v)%Z) ->
      exists x', asn_merge fuel fx fy hxx hyy x (pos_of it0) ys = Ret x' /\ srt x' /\
        forall i, gh x' i = after vs ys i (gh x i).
    Proof.
      induction n as [|n IH]; intros vs ys it0 x fuel Ln Lf CH A Sx AM SV SY OV OY BV BY LY;
        (destruct fuel as [|fuel]; [lia|]); cbn [asn_merge]; rewrite (more_at _ _ AM).
      - destruct vs; [|cbn in Ln; lia]. destruct ys; [|cbn in Ln; lia]. inversion CH; subst. rewrite H. cbn [negb andb at_end].
        exists x. split; [reflexivity|]. split; [exact Sx|]. reflexivity.
      - (* advancing the iterator of x *)
        assert (NX : forall x2 it' , srt x2 -> er (iter_at x2 (pos_of it0)) = er it0 -> hess_next it0 = Ret it' ->
          exists px', (it2 <- hess_next (iter_at x2 (pos_of it0));; Ret (pos_of it2)) = Ret px' /\ px' = pos_of it' /\ at_more x2 it').
        { intros x2 it' S2 E2 X. destruct (er_next_ret _ _ _ E2 X) as (it2 & X2 & E3). rewrite X2. cbn [bind].
          eexists. split; [reflexivity|]. split; [now apply pos_er|]. intros _.
          rewrite <- (pos_er _ _ E3). rewrite at_pos; [exact E3|exact S2|].
          eapply inside_next; [apply inside_at|exact X2]. }
        inversion CH as [it E Ea Eb|it v0 it' vs' E V X CH' Ea Eb]; subst.
        + (* x is over *)
          rewrite E. cbn [negb andb]. destruct ys as [|vy ys]; cbn [at_end].
          { exists x. split; [reflexivity|]. split; [exact Sx|]. reflexivity. }
          cbn [bind]. inversion BY as [|? ? B1 B2]; subst. destruct (max_after _ B1) as (P1 & P2 & P3). rewrite P1, P2, P3.
          cbn [bind negb]. destruct (asn_y_ok fy hyy vy true x it0 Sx AM A (LY vy (or_introl eq_refl)) ltac:(congruence)) as (x2 & Y & S2 & A2 & F2).
          rewrite Y. cbn [bind it_next]. inversion SY; subst.
          destruct (IH [] ys it0 x2 fuel ltac:(cbn in *; lia) ltac:(lia) CH A S2 A2 SV ltac:(assumption) OV (once_tl _ _ OY) BV B2 ltac:(intros v Hv; apply LY; now right)) as (x' & M & S' & G').
          exists x'. split; [exact M|]. split; [exact S'|]. intro i. rewrite G', after_y by (auto; reflexivity).
          now rewrite (gh_y _ _ _ true F2).
        + rewrite E. cbn [negb andb]. assert (EQ := AM E).
          destruct (asn_x_ok fx hxx x it0 v0 Sx EQ A V) as (v & x1 & V1 & I1 & X1 & S1 & K1 & F1 & _).
          rewrite V1. cbn [bind]. rewrite I1. inversion BV as [|? ? B1 B2]; subst. inversion SV as [|? ? SV' SVh]; subst.
          assert (A' : ahead it') by (eapply ahead_next; eauto).
          destruct ys as [|vy ys].
          * destruct (max_after _ B1) as (P1 & P2 & P3). rewrite P1, P2, X1. cbn [bind].
            destruct (NX x1 it' S1 K1 X) as (px' & N1 & -> & AM'). rewrite N1. cbn [bind].
            destruct (IH vs' [] it' x1 fuel ltac:(cbn in *; lia) ltac:(lia) CH' A' S1 AM' SV' SY (once_tl _ _ OV) OY B2 BY LY) as (x' & M & S' & G').
            exists x'. split; [exact M|]. split; [exact S'|]. intro i. rewrite G', after_x by exact OV. now rewrite (gh_x _ _ _ F1).
          * inversion BY as [|? ? C1 C2]; subst. inversion SY as [|? ? SY' SYh]; subst.
            unfold pleb, peqb. rewrite (kcmp_opp (vid v0) (vid vy)). destruct (kcmp (vid v0) (vid vy)) eqn:C; cbn [CompOpp negb].
            -- (* the same pair *)
               rewrite X1. cbn [bind].
               destruct (asn_y_ok fy hyy vy false x1 it0 S1 ltac:(intro; exact K1) A (LY vy (or_introl eq_refl))) as (x2 & Y & S2 & A2 & F2).
               { intros _. exists v0. split; [exact V|]. unfold klt. rewrite C. discriminate. }
               rewrite Y. cbn [bind]. destruct (NX x2 it' S2 (A2 E) X) as (px' & N1 & -> & AM'). rewrite N1. cbn [bind it_next].
               destruct (IH vs' ys it' x2 fuel ltac:(cbn in *; lia) ltac:(lia) CH' A' S2 AM' SV' SY' (once_tl _ _ OV) (once_tl _ _ OY) B2 C2 ltac:(intros u Hu; apply LY; now right)) as (x' & M & S' & G').
               exists x'. split; [exact M|]. split; [exact S'|]. intro i. rewrite G', after_x by exact OV.
               apply kcmp_eq in C.
               rewrite after_y; [|exact OY|].
               ++ rewrite (gh_y _ _ _ false F2), (gh_x _ _ _ F1). reflexivity.
               ++ intro Q. apply exists_filter. apply (once_hd _ _ _ OV). rewrite vis_eq in *. now rewrite C.
            -- (* x first *)
               rewrite X1. cbn [bind]. destruct (NX x1 it' S1 K1 X) as (px' & N1 & -> & AM'). rewrite N1. cbn [bind].
               destruct (IH vs' (vy :: ys) it' x1 fuel ltac:(cbn in *; lia) ltac:(lia) CH' A' S1 AM' SV' SY (once_tl _ _ OV) OY B2 BY LY) as (x' & M & S' & G').
               exists x'. split; [exact M|]. split; [exact S'|]. intro i. rewrite G', after_x by exact OV. now rewrite (gh_x _ _ _ F1).
            -- (* y first *)
               cbn [bind].
               destruct (asn_y_ok fy hyy vy true x it0 Sx AM A (LY vy (or_introl eq_refl))) as (x2 & Y & S2 & A2 & F2).
               { intros _. exists v0. split; [exact V|]. unfold klt. rewrite C. discriminate. }
               rewrite Y. cbn [bind it_next].
               destruct (IH (v0 :: vs') ys it0 x2 fuel ltac:(cbn in *; lia) ltac:(lia) CH A S2 A2 SV SY' OV (once_tl _ _ OY) BV C2 ltac:(intros u Hu; apply LY; now right)) as (x' & M & S' & G').
               exists x'. split; [exact M|]. split; [exact S'|]. intro i. rewrite G'.
               rewrite after_y; [|exact OY|].
               ++ now rewrite (gh_y _ _ _ true F2).
               ++ intro Q. apply exists_filter. rewrite vis_eq in Q. apply keqb_eq in Q.
                  apply vis_nil. rewrite Q. assert (L0 : klt (vid vy) (vid v0)) by (now apply kcmp_gt).
                  intros u [<-|Hu]; [exact L0|]. rewrite Forall_forall in SVh. eapply klt_le_trans; [exact L0|exact (SVh u Hu)].
    Qed.
  End Loop.
End Assign2.
