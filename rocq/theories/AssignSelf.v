(** * AssignSelf: C35, binary_assign of UReal2 with the same object as both arguments *)

From Coq Require Import List ZArith Bool Sorted Lia Reals Lra.
From Verif Require Import Base Num Map UReal World HessGrad Moments CheckMoments UReal2 UReal2Self World2 HessProofs U2Facts U2World.
From Verif Require Import SpecU2 SpecU2Run U2Values U2Proofs U2Proofs2 AssignProofs AssignProofs2 AssignProofs3 Demo2.
Import ListNotations.

Section Self.
  Context {N : Num}.
  Local Open Scope num_scope.
  Implicit Types x r : hessgrad N.

  (** ** Writes at or before the pair of another iterator *)
  Definition not_after (it : iter N) (q : Z * Z) : Prop := it_more it = true -> exists v, hess_visit it = Ret v /\ ~ klt (vid v) q.
  Lemma keep_d z i f it : srt z -> at_more z it -> ahead it -> not_after it (i, i) -> srt (hg_diag i f z) /\ at_more (hg_diag i f z) it.
  Proof.
    intros Sz AMz A HV. split; [split; [now apply msorted_mupd; apply Sz|apply Sz]|]. intro M. specialize (AMz M).
    destruct (HV M) as (v0 & V & K). rewrite <- AMz.
    apply keep_diag; [exact Sz|]. destruct (heads _ _ V) as (d1 & mn & d2 & mx & E1 & E2).
    unfold vid in K. rewrite klt_ZZ in K. cbn in K.
    assert (E := AMz). apply er_eq in E as (Ea & _). unfold iter_at in Ea; cbn [it_min] in Ea. rewrite E1 in Ea.
    assert (IN : In (vid1 v0) (map fst (diagmap z))).
    { eapply suf_keys; [apply (suf_from (pmin (pos_of it)))|]. rewrite Ea. now left. }
    destruct A as (SM & _ & SX & _ & _).
    assert (Lv : (vid1 v0 <= vid2 v0)%Z).
    { assert (H : In (vid2 v0) (map fst (it_min it))) by (eapply suf_keys; [exact SX|rewrite E2; now left]).
      rewrite E1 in H, SM. cbn in H. destruct H as [<-|H]; [lia|].
      destruct (msorted_inv _ _ _ SM) as [_ F]. apply F in H. apply klt_lt in H. lia. }
    destruct (Z.eq_dec i (vid1 v0)) as [->|NE]; [now left|right].
    unfold pos_of; cbn [pmin pmax]. rewrite E1, E2. cbn [key_of]. split; intros k [= <-]; lia.
  Qed.
  Lemma keep_t z i j f it : srt z -> at_more z it -> ahead it -> (i < j)%Z -> not_after it (i, j) ->
    exists z', hg_tri i j f z = Ret z' /\ diagmap z' = diagmap z /\ srt z' /\ at_more z' it.
  Proof.
    intros Sz AMz A L HV. destruct (it_more it) eqn:M.
    - specialize (AMz M). destruct (HV M) as (v0 & V & K).
      destruct (keep_tri z i j f (pos_of it) Sz L (pos_tri _ _ _ Sz AMz A V (i, j) K)) as (z' & T & D & K' & S').
      exists z'. split; [exact T|]. split; [exact D|]. split; [exact S'|]. intros _. now rewrite K'.
    - unfold hg_tri. rewrite (proj2 (Z.ltb_lt _ _) L). cbn [assert_ bind].
      eexists. split; [reflexivity|]. cbn [diagmap]. split; [reflexivity|]. split; [split; [apply Sz|apply msorted_mupd; apply Sz]|].
      intro M'. congruence.
  Qed.
  Lemma keep_h z i j f it z' : srt z -> at_more z it -> ahead it -> (i <= j)%Z -> not_after it (i, j) ->
    hg_hhess i j f z = Ret z' -> srt z' /\ at_more z' it.
  Proof.
    intros Sz AM A L HV E. unfold hg_hhess in E. destruct (Z.eqb_spec i j) as [<-|NE]; cbn [negb] in E.
    - injection E as <-. now apply keep_d.
    - destruct (keep_t z i j f it Sz AM A ltac:(lia) HV) as (z2 & T & _ & S2 & A2). rewrite T in E. injection E as <-. auto.
  Qed.
  Lemma not_after_self it v : hess_visit it = Ret v -> not_after it (vid v).
  Proof. intros V _. exists v. split; [exact V|]. unfold klt. rewrite kcmp_refl. discriminate. Qed.
  Lemma asn_x_keep f h x it0 v0 v x1 it : srt x -> it_more it0 = true -> er (iter_at x (pos_of it0)) = er it0 -> ahead it0 -> hess_visit it0 = Ret v0 ->
    hess_visit (iter_at x (pos_of it0)) = Ret v -> asn_x f h (pos_of it0) v x = Ret x1 ->
    at_more x it -> ahead it -> not_after it (vid v0) -> at_more x1 it.
  Proof.
    intros Sx MO E A V Vx X AM AI NA. destruct (visit_at _ _ _ _ Sx E A V) as (v' & V' & I1 & L1 & _). rewrite Vx in V'. injection V' as <-.
    unfold asn_x in X. assert (IV : vid v = (vid1 v, vid2 v)) by reflexivity. rewrite IV in I1.
    destruct (hg_hhess (vid1 v) (vid2 v) _ x) as [r| | |] eqn:H1; cbn [bind] in X; try discriminate.
    rewrite <- I1 in NA.
    assert (NS : not_after it0 (vid1 v, vid2 v)) by (rewrite I1; now apply not_after_self).
    destruct (keep_h _ _ _ _ it _ Sx AM AI L1 NA H1) as [Sr AMr].
    destruct (keep_h _ _ _ _ it0 _ Sx (fun _ => E) A L1 NS H1) as [_ Er]. specialize (Er MO).
    destruct (visit_at _ _ _ _ Sr Er A V) as (w & W1 & J1 & L2 & _). rewrite W1 in X. cbn [bind] in X.
    destruct (hg_hhess (vid1 w) (vid2 w) _ r) as [r2| | |] eqn:H2; cbn [bind] in X; try discriminate.
    assert (IW : (vid1 w, vid2 w) = (vid1 v, vid2 v)) by (rewrite I1, <- J1; reflexivity).
    destruct (keep_h _ _ _ _ it _ Sr AMr AI L2 ltac:(rewrite IW; exact NA) H2) as [Sr2 AM2].
    destruct (Z.eqb_spec (vid1 w) (vid2 w)) as [Q|_]; injection X as <-; [|exact AM2].
    apply keep_d; auto. rewrite Q at 2. now rewrite IW.
  Qed.

  Section Loop.
    Variables fx fy hxx hyy : N.
    Lemma self_y_ok (fresh : bool) x it1 v1 it : srt x -> it_more it1 = true -> er (iter_at x (pos_of it1)) = er it1 -> ahead it1 -> hess_visit it1 = Ret v1 ->
      (fresh = true -> vid1 v1 <> vid2 v1) -> at_more x it -> ahead it -> not_after it (vid v1) ->
      exists x1, self_y fy hyy (pos_of it1) fresh x = Ret x1 /\ srt x1 /\ er (iter_at x1 (pos_of it1)) = er it1 /\ at_more x1 it /\
        (forall i, mfind i (diagmap x1) = if keqb (i, i) (vid v1) then option_map (cX fy hyy) (mfind i (diagmap x)) else mfind i (diagmap x)).
    Proof.
      intros Sx MO E A V NF AM AI NA. unfold self_y. destruct (visit_at _ _ _ _ Sx E A V) as (v & V' & I1 & L1 & _). rewrite V'. cbn [bind].
      assert (R : exists z, (if fresh then
            r <- hg_hhess (vid1 v) (vid2 v) (fun h => h) x;;
            Ret (if (vid1 v =? vid2 v)%Z then hg_diag (vid1 v) (fun d => mkD (dgrad d) (dhh d) (dmom (vd1 v))) r else r)
          else Ret x) = Ret z /\ srt z /\ at_more z it /\ er (iter_at z (pos_of it1)) = er it1 /\ diagmap z = diagmap x).
      { destruct fresh; [|exists x; auto 8]. assert (Q : vid1 v <> vid2 v) by (unfold vid in I1; injection I1 as -> ->; auto).
        assert (NV : not_after it (vid1 v, vid2 v)) by (change (vid1 v, vid2 v) with (vid v); now rewrite I1).
        assert (NS : not_after it1 (vid1 v, vid2 v)) by (change (vid1 v, vid2 v) with (vid v); rewrite I1; now apply not_after_self).
        unfold hg_hhess. rewrite (proj2 (Z.eqb_neq _ _) Q). cbn [negb].
        destruct (keep_t x (vid1 v) (vid2 v) (fun h => h) it Sx AM AI ltac:(lia) NV) as (z & T & D & S' & A').
        destruct (keep_t x (vid1 v) (vid2 v) (fun h => h) it1 Sx (fun _ => E) A ltac:(lia) NS) as (z2 & T2 & _ & _ & A2).
        rewrite T in T2. injection T2 as <-. rewrite T. cbn [bind]. exists z. repeat split; auto; apply S'. }
      destruct R as (z & -> & Sz & AMz & Ez & Dz). cbn [bind].
      destruct (asn_x_ok fy hyy z it1 v1 Sz Ez A V) as (v2 & x1 & V2 & I2 & X2 & S2 & K2 & F2 & _). rewrite V2. cbn [bind].
      exists x1. split; [exact X2|]. split; [exact S2|]. split; [exact K2|]. split; [|intro i; rewrite F2, Dz; reflexivity].
      exact (asn_x_keep fy hyy z it1 v1 v2 x1 it Sz MO Ez A V V2 X2 AMz AI NA).
    Qed.

    Definition gS (p : N * N) : N * N := gX fy hyy (gX fx hxx p).
    Definition passed (vs : list (visit N)) (i : Z) (c : option (N * N)) : option (N * N) :=
      if existsb (vis (i, i)) vs then option_map gS c else c.
    Lemma passed_cons v vs i c : once (v :: vs) -> passed (v :: vs) i c = passed vs i (if vis (i, i) v then option_map gS c else c).
    Proof.
      intro O. unfold passed. cbn [existsb]. destruct (vis (i, i) v) eqn:E; cbn [orb]; [|reflexivity].
      now rewrite (exists_filter _ _ (once_hd _ _ _ O E)).
    Qed.
    (** both iterators visit the same diagonal elements *)
    Definition alike (vs ys : list (visit N)) : Prop := forall i, existsb (vis (i, i)) vs = existsb (vis (i, i)) ys.
    Lemma next_at x2 it0 it' : srt x2 -> er (iter_at x2 (pos_of it0)) = er it0 -> hess_next it0 = Ret it' ->
      (it2 <- hess_next (iter_at x2 (pos_of it0));; Ret (pos_of it2)) = Ret (pos_of it') /\ at_more x2 it'.
    Proof.
      intros S2 E2 X. destruct (er_next_ret _ _ _ E2 X) as (it2 & X2 & E3). rewrite X2. cbn [bind].
      split; [f_equal; now apply pos_er|]. intros _.
      rewrite <- (pos_er _ _ E3). rewrite at_pos; [exact E3|exact S2|].
      eapply inside_next; [apply inside_at|exact X2].
    Qed.
    Lemma absent q (vs : list (visit N)) v : StronglySorted vle (v :: vs) -> klt q (vid v) -> existsb (vis q) (v :: vs) = false.
    Proof.
      intros SS K. apply exists_filter, vis_nil. inversion SS as [|? ? _ F]; subst. rewrite Forall_forall in F.
      intros u [<-|Hu]; [exact K|]. eapply klt_le_trans; [exact K|]. exact (F u Hu).
    Qed.
    (* a pair only one iterator visits is not on the diagonal *)
    Lemma lone (v : visit N) vs ys i : alike (v :: vs) ys -> existsb (vis (vid v)) ys = false -> vis (i, i) v = false.
    Proof.
      intros AL F. destruct (vis (i, i) v) eqn:Q; [|reflexivity]. specialize (AL i). cbn [existsb] in AL. rewrite Q in AL. cbn [orb] in AL.
      rewrite vis_eq in Q. apply keqb_eq in Q. rewrite <- Q in F. congruence.
    Qed.
    Lemma off_diag (v : visit N) : (forall i, vis (i, i) v = false) -> vid1 v <> vid2 v.
    Proof. intros H Q. specialize (H (vid1 v)). rewrite vis_eq in H. apply keqb_neq in H. apply H. unfold vid. now rewrite <- Q. Qed.

    Lemma self_merge_ok n : forall vs ys it0 it1 x fuel, (length vs + length ys <= n)%nat -> (n < fuel)%nat ->
      chain hess_next hess_visit it0 vs -> chain hess_next hess_visit it1 ys -> ahead it0 -> ahead it1 -> srt x -> at_more x it0 -> at_more x it1 ->
      StronglySorted vle vs -> StronglySorted vle ys -> once vs -> once ys ->
      List.Forall below_max vs -> List.Forall below_max ys -> alike vs ys ->
      exists x', self_merge fuel fx fy hxx hyy x (pos_of it0) (pos_of it1) = Ret x' /\ srt x' /\ forall i, gh x' i = passed vs i (gh x i).
    Proof.
      induction n as [|n IH]; intros vs ys it0 it1 x fuel Ln Lf CH CY A B Sx AM BM SV SY OV OY BV BY AL;
        (destruct fuel as [|fuel]; [lia|]); cbn [self_merge]; cbv zeta; rewrite (more_at _ _ AM), (more_at _ _ BM).
      { destruct vs; [|cbn in Ln; lia]. destruct ys; [|cbn in Ln; lia]. inversion CH; subst. inversion CY; subst. rewrite H, H0. cbn [negb andb].
        exists x. split; [reflexivity|]. split; [exact Sx|]. reflexivity. }
      inversion CH as [it E Ea Eb|it v0 it' vs' E V X CH' Ea Eb]; subst; inversion CY as [jt E1 Ea Eb|jt w0 jt' ys' E1 W Y CY' Ea Eb]; subst;
        rewrite E, E1; cbn [negb andb bind].
      - exists x. split; [reflexivity|]. split; [exact Sx|]. reflexivity.
      - (* x is over *)
        assert (EQ := BM E1). destruct (visit_at _ _ _ _ Sx EQ B W) as (w & W1 & I1 & _). rewrite W1. cbn [bind]. rewrite I1.
        inversion BY as [|? ? B1 B2]; subst. inversion SY; subst. destruct (max_after _ B1) as (P1 & P2 & P3). rewrite P1, P2, P3. cbn [bind negb].
        assert (LO : forall i, vis (i, i) w0 = false).
        { intro i. specialize (AL i). cbn [existsb] in AL. symmetry in AL. now apply orb_false_iff in AL. }
        destruct (self_y_ok true x it1 w0 it0 Sx E1 EQ B W (fun _ => off_diag _ LO) AM A ltac:(intro; congruence)) as (x2 & Y2 & S2 & K2 & A2 & F2).
        rewrite Y2. cbn [bind]. destruct (next_at x2 it1 jt' S2 K2 Y) as (N1 & AM'). rewrite N1. cbn [bind].
        destruct (IH [] ys' it0 jt' x2 fuel ltac:(cbn in *; lia) ltac:(lia) CH CY' A (ahead_next _ _ B Y) S2 A2 AM' SV ltac:(assumption) OV (once_tl _ _ OY) BV B2) as (x' & M & S' & G').
        { intro i. specialize (AL i). cbn [existsb] in AL. rewrite LO in AL. exact AL. }
        exists x'. split; [exact M|]. split; [exact S'|]. intro i. rewrite G'. rewrite (gh_x fy hyy _ _ _ F2), LO. reflexivity.
      - (* y is over *)
        assert (EQ := AM E). destruct (asn_x_ok fx hxx x it0 v0 Sx EQ A V) as (v & x1 & V1 & I1 & X1 & S1 & K1 & F1 & _).
        rewrite V1. cbn [bind]. rewrite I1. inversion BV as [|? ? B1 B2]; subst. inversion SV; subst. destruct (max_after _ B1) as (P1 & P2 & P3).
        rewrite P1, P2, X1. cbn [bind].
        assert (AX := asn_x_keep fx hxx x it0 v0 v x1 it1 Sx E EQ A V V1 X1 BM B ltac:(intro; congruence)).
        destruct (next_at x1 it0 it' S1 K1 X) as (N1 & AM'). rewrite N1. cbn [bind].
        assert (LO : forall i, vis (i, i) v0 = false) by (intro i; apply (lone v0 vs' [] i AL eq_refl)).
        destruct (IH vs' [] it' it1 x1 fuel ltac:(cbn in *; lia) ltac:(lia) CH' CY (ahead_next _ _ A X) B S1 AM' AX ltac:(assumption) SY (once_tl _ _ OV) OY B2 BY) as (x' & M & S' & G').
        { intro i. specialize (AL i). cbn [existsb] in AL. rewrite LO in AL. exact AL. }
        exists x'. split; [exact M|]. split; [exact S'|]. intro i. rewrite G', passed_cons by exact OV. rewrite (gh_x fx hxx _ _ _ F1), LO. reflexivity.
      - assert (EQ := AM E). assert (EQ1 := BM E1). destruct (asn_x_ok fx hxx x it0 v0 Sx EQ A V) as (v & x1 & V1 & I1 & X1 & S1 & K1 & F1 & _).
        rewrite V1. cbn [bind]. destruct (visit_at _ _ _ _ Sx EQ1 B W) as (w & W1 & J1 & _). rewrite W1. cbn [bind]. rewrite I1, J1.
        inversion BV as [|? ? B1 B2]; subst. inversion BY as [|? ? C1 C2]; subst. inversion SV as [|? ? SV' SVh]; subst. inversion SY as [|? ? SY' SYh]; subst.
        assert (A' := ahead_next _ _ A X). assert (B' := ahead_next _ _ B Y).
        unfold pleb, peqb. rewrite (kcmp_opp (vid v0) (vid w0)). destruct (kcmp (vid v0) (vid w0)) eqn:C; cbn [CompOpp negb].
        + (* the same pair *)
          rewrite X1. cbn [bind].
          assert (AX := asn_x_keep fx hxx x it0 v0 v x1 it1 Sx E EQ A V V1 X1 BM B ltac:(intros _; exists w0; split; [exact W|unfold klt; rewrite (kcmp_opp (vid v0) (vid w0)), C; discriminate])).
          destruct (self_y_ok false x1 it1 w0 it0 S1 E1 (AX E1) B W ltac:(discriminate) (fun _ => K1) A ltac:(intros _; exists v0; split; [exact V|unfold klt; rewrite C; discriminate])) as (x2 & Y2 & S2 & K2 & A2 & F2).
          rewrite Y2. cbn [bind]. destruct (next_at x2 it0 it' S2 (A2 E) X) as (N1 & AM'). rewrite N1. cbn [bind].
          destruct (next_at x2 it1 jt' S2 K2 Y) as (N2 & AM2'). rewrite N2. cbn [bind]. apply kcmp_eq in C.
          destruct (IH vs' ys' it' jt' x2 fuel ltac:(cbn in *; lia) ltac:(lia) CH' CY' A' B' S2 AM' AM2' SV' SY' (once_tl _ _ OV) (once_tl _ _ OY) B2 C2) as (x' & M & S' & G').
          { intro i. assert (Q := AL i). cbn [existsb] in Q. destruct (vis (i, i) v0) eqn:Q1.
            - rewrite (exists_filter _ _ (once_hd _ _ _ OV Q1)). symmetry. apply exists_filter. apply (once_hd _ _ _ OY). rewrite vis_eq in *. now rewrite <- C.
            - rewrite vis_eq, C, <- vis_eq in Q1. rewrite Q1 in Q. exact Q. }
          exists x'. split; [exact M|]. split; [exact S'|]. intro i. rewrite G', passed_cons by exact OV.
          rewrite (gh_x fy hyy _ _ _ F2), (gh_x fx hxx _ _ _ F1). rewrite (vis_eq i w0), <- C, <- vis_eq. destruct (vis (i, i) v0); [|reflexivity].
          destruct (gh x i); reflexivity.
        + (* x first *)
          rewrite X1. cbn [bind].
          assert (AX := asn_x_keep fx hxx x it0 v0 v x1 it1 Sx E EQ A V V1 X1 BM B ltac:(intros _; exists w0; split; [exact W|unfold klt; rewrite (kcmp_opp (vid v0) (vid w0)), C; discriminate])).
          destruct (next_at x1 it0 it' S1 K1 X) as (N1 & AM'). rewrite N1. cbn [bind].
          assert (LO : forall i, vis (i, i) v0 = false) by (intro i; apply (lone v0 vs' (w0 :: ys') i AL); apply absent; [exact SY|exact C]).
          destruct (IH vs' (w0 :: ys') it' it1 x1 fuel ltac:(cbn in *; lia) ltac:(lia) CH' CY A' B S1 AM' AX SV' SY (once_tl _ _ OV) OY B2 BY) as (x' & M & S' & G').
          { intro i. assert (Q := AL i). cbn [existsb] in Q. rewrite LO in Q. exact Q. }
          exists x'. split; [exact M|]. split; [exact S'|]. intro i. rewrite G', passed_cons by exact OV. rewrite (gh_x fx hxx _ _ _ F1), LO. reflexivity.
        + (* y first *)
          cbn [bind].
          assert (LT : klt (vid w0) (vid v0)) by (now apply kcmp_gt).
          assert (LO : forall i, vis (i, i) w0 = false).
          { intro i. apply (lone w0 ys' (v0 :: vs') i); [intro k; symmetry; apply AL|]. apply absent; [exact SV|exact LT]. }
          destruct (self_y_ok true x it1 w0 it0 Sx E1 EQ1 B W (fun _ => off_diag _ LO) AM A ltac:(intros _; exists v0; split; [exact V|unfold klt; rewrite C; discriminate])) as (x2 & Y2 & S2 & K2 & A2 & F2).
          rewrite Y2. cbn [bind]. destruct (next_at x2 it1 jt' S2 K2 Y) as (N1 & AM'). rewrite N1. cbn [bind].
          destruct (IH (v0 :: vs') ys' it0 jt' x2 fuel ltac:(cbn in *; lia) ltac:(lia) CH CY' A B' S2 A2 AM' SV SY' OV (once_tl _ _ OY) BV C2) as (x' & M & S' & G').
          { intro i. assert (Q := AL i). cbn [existsb] in Q |- *. rewrite LO in Q. exact Q. }
          exists x'. split; [exact M|]. split; [exact S'|]. intro i. rewrite G', (gh_x fy hyy _ _ _ F2), LO. reflexivity.
    Qed.
  End Loop.

  Lemma self_row_tail hxy idi js : forall x, srt x -> (forall j, In j js -> (idi < j)%Z) ->
    exists x', self_row hxy idi js x = Ret x' /\ srt x' /\ diagmap x' = diagmap x.
  Proof.
    induction js as [|j js IH]; intros x Sx L; cbn [self_row].
    - exists x. auto.
    - assert (Lj := L j (or_introl eq_refl)). unfold hg_hhess. rewrite (proj2 (Z.eqb_neq idi j)) by lia. cbn [negb].
      unfold hg_tri. rewrite (proj2 (Z.ltb_lt _ _) Lj). cbn [assert_ bind].
      match goal with |- context [self_row hxy idi js ?z] => destruct (IH z) as (x' & E & S' & D') end.
      + split; [apply Sx|]. cbn. apply msorted_mupd, Sx.
      + intros k Hk. apply L. now right.
      + exists x'. split; [exact E|]. split; [exact S'|]. now rewrite D'.
  Qed.
  Definition gCS (hxy : N) (p : N * N) : N * N := gC hxy (fst p) p.
  Lemma self_row_all hxy idi js x : srt x -> In idi (keys x) -> (forall j, In j js -> (idi < j)%Z) ->
    exists x', self_row hxy idi (idi :: js) x = Ret x' /\ srt x' /\ keys x' = keys x /\
      forall i, gh x' i = if (i =? idi)%Z then option_map (gCS hxy) (gh x i) else gh x i.
  Proof.
    intros Sx IN L. cbn [self_row]. unfold hg_hhess. rewrite Z.eqb_refl. cbn [negb bind].
    match goal with |- context [self_row hxy idi js ?z] => destruct (self_row_tail hxy idi js z) as (x' & E & S' & D') end.
    - split; [|apply Sx]. cbn. apply msorted_mupd, Sx.
    - exact L.
    - exists x'. split; [exact E|]. split; [exact S'|]. unfold keys, gh. rewrite D'. unfold hg_diag. cbn [diagmap]. split.
      + unfold mupd. apply mset_keys_in; [apply Sx|exact IN].
      + intro i. rewrite find_mupd by apply Sx. destruct (Z.eqb_spec i idi) as [->|NE].
        * rewrite keqb_refl. unfold hg_diag_get, mget. unfold keys in IN.
          destruct (mfind idi (diagmap x)) as [d|] eqn:F.
          -- cbn [option_map dgrad dhh]. reflexivity.
          -- exfalso. apply mfind_None_iff in F; [contradiction|apply Sx].
        * rewrite (proj2 (keqb_neq _ _)) by exact NE. reflexivity.
  Qed.
  Lemma self_cross_ok hxy is : forall x, srt x -> StronglySorted Z.lt is -> (forall i, In i is -> In i (keys x)) ->
    exists x', self_cross hxy is x = Ret x' /\ srt x' /\ keys x' = keys x /\
      forall i, gh x' i = if existsb (Z.eqb i) is then option_map (gCS hxy) (gh x i) else gh x i.
  Proof.
    induction is as [|idi is IH]; intros x Sx SI HI; cbn [self_cross].
    - exists x. auto.
    - inversion SI as [|? ? SI' F]; subst. rewrite Forall_forall in F.
      destruct (self_row_all hxy idi is x Sx (HI _ (or_introl eq_refl)) F) as (x1 & E1 & S1 & K1 & G1). rewrite E1. cbn [bind].
      destruct (IH x1 S1 SI') as (x' & E & S' & K' & G').
      { intros i Hi. rewrite K1. apply HI. now right. }
      exists x'. split; [exact E|]. split; [exact S'|]. split; [congruence|]. intro i. rewrite G', G1. cbn [existsb].
      destruct (Z.eqb_spec i idi) as [->|NE]; [|reflexivity]. cbn [orb].
      destruct (existsb (Z.eqb idi) is) eqn:Q; [|reflexivity]. apply existsb_exists in Q as (j & Hj & Ej).
      apply Z.eqb_eq in Ej. subst j. specialize (F _ Hj). lia.
  Qed.

  Definition self_cell (fx fy hxx hyy hxy : N) (c : option (N * N)) : option (N * N) :=
    let c1 := option_map (gS fx fy hxx hyy) c in
    if hxy =? n0 then c1 else option_map (gCS hxy) c1.
  Lemma self_ok (x : ureal2 N) f fx fy fxx fyy fxy : hg_ok (u2hg x) -> kbelow (u2hg x) ->
    exists z, u2_self_assign x f fx fy fxx fyy fxy = Ret z /\ u2mu z = f /\ srt (u2hg z) /\
      forall i, gh (u2hg z) i = self_cell fx fy (fxx / nofZ 2) (fyy / nofZ 2) (fxy / nofZ 2) (gh (u2hg x) i).
  Proof.
    intros OX KX. unfold u2_self_assign. cbv zeta.
    set (hxx := fxx / nofZ 2) in *. set (hyy := fyy / nofZ 2) in *. set (hxy := fxy / nofZ 2).
    destruct (chain_of (u2hg x) (hxx =? n0) OX) as (vs & C & EV & VX).
    destruct (chain_of (u2hg x) (hyy =? n0) OX) as (ys & C2 & EY & VY).
    assert (L1 := walk_length _ _ _ _ _ EV). assert (L2 := walk_length _ _ _ _ _ EY).
    set (n := (2 * walk_fuel (u2hg x))%nat) in *.
    assert (Sx : srt (u2hg x)) by (destruct OX as (A & B & _); split; assumption).
    assert (BG : forall sk, at_more (u2hg x) (hess_begin (u2hg x) sk)).
    { intros sk _. rewrite at_pos; [reflexivity|exact Sx|]. unfold inside, hess_begin. cbn [it_min it_max it_tri]. exact (conj (suf_refl _) (conj (suf_refl _) (suf_refl _))). }
    destruct (self_merge_ok fx fy hxx hyy (length vs + length ys) vs ys (hess_begin (u2hg x) (hxx =? n0)) (hess_begin (u2hg x) (hyy =? n0)) (u2hg x) (n * n)) as (r & M & Sr & Gr).
    - lia.
    - assert (2 <= n)%nat by (unfold n, walk_fuel; lia). assert (length vs + length ys < n)%nat by (unfold n; lia). nia.
    - exact C.
    - exact C2.
    - now apply ahead_begin.
    - now apply ahead_begin.
    - exact Sx.
    - apply BG.
    - apply BG.
    - exact (proj1 VX).
    - exact (proj1 VY).
    - eapply visits_once; eauto.
    - eapply visits_once; eauto.
    - exact (visits_below _ _ KX VX).
    - exact (visits_below _ _ KX VY).
    - intro i. destruct VX as (_ & _ & FX). destruct VY as (_ & _ & FY). specialize (FX i). specialize (FY i). rewrite <- FY in FX.
      assert (EF : forall l : list (visit N), existsb (vis (i, i)) l = negb (Nat.eqb (length (filter (vis (i, i)) l)) 0)).
      { induction l as [|u l IHl]; [reflexivity|]. cbn. destruct (vis (i, i) u); [reflexivity|exact IHl]. }
      now rewrite !EF, FX.
    - rewrite M. cbn [bind].
      assert (AF : forall i, gh r i = option_map (gS fx fy hxx hyy) (gh (u2hg x) i)).
      { intro i. rewrite Gr. unfold passed. destruct VX as (_ & _ & FX). specialize (FX i).
        unfold gh. destruct (mfind i (diagmap (u2hg x))) as [d|] eqn:F; [|now destruct (existsb _ vs)].
        assert (Q : existsb (vis (i, i)) vs = true).
        { apply existsb_exists. exists (dvisit (i, d)). apply filter_In. rewrite FX. now left. }
        now rewrite Q. }
      unfold self_cell. fold hxx hyy hxy. destruct (hxy =? n0); cbn [negb bind].
      + eexists. split; [reflexivity|]. cbn [u2mu u2hg]. split; [reflexivity|]. split; [exact Sr|]. intro i. rewrite AF. reflexivity.
      + destruct (self_cross_ok hxy (map fst (diagmap r)) r Sr) as (r' & E & S' & K' & G').
        * destruct Sr as [SD _]. clear - SD. unfold msorted in SD.
          induction SD as [|k l SS IH F]; constructor; [exact IH|]. rewrite Forall_forall in *. intros z Hz. apply klt_lt. auto.
        * auto.
        * rewrite E. cbn [bind]. eexists. split; [reflexivity|]. cbn [u2mu u2hg]. split; [reflexivity|]. split; [exact S'|].
          intro i. rewrite G'.
          assert (Q : (if existsb (Z.eqb i) (map fst (diagmap r)) then option_map (gCS hxy) (gh r i) else gh r i)
                      = option_map (gCS hxy) (gh r i)).
          { unfold gh. destruct (mfind i (diagmap r)) as [d|] eqn:F; [|now destruct (existsb _ _)].
            assert (Q : existsb (Z.eqb i) (map fst (diagmap r)) = true).
            { apply existsb_exists. exists i. split; [|apply Z.eqb_refl]. apply mfind_In in F. now apply (in_map fst) in F. }
            now rewrite Q. }
          rewrite Q, AF. reflexivity.
  Qed.
End Self.

Local Open Scope R_scope.

Lemma C35_same_object_proof : forall eig (w : world2 RN), reachable2 eig w ->
  forall (u : nat) f fx fy fxx fyy fxy,
  let x := jet_of (w2_var w u) in
  exists z', u2_self_assign (w2_var w u) f fx fy fxx fyy fxy = Ret z' /\
    let z := jet_of z' in
    j_mean z = f /\ (forall i, j_dep z i <-> j_dep x i) /\
    (forall i, j_g z i = (1 + fx) * (1 + fy) * j_g x i) /\
    (forall i, j_h z i i = (1 + fy) * ((1 + fx) * (j_h x i i + fxx / 2 * (j_g x i * j_g x i))
                                       + fyy / 2 * ((1 + fx) * j_g x i * ((1 + fx) * j_g x i)))
                           + fxy * (j_g z i * j_g z i)) /\
    ((forall i, j_g z i = (fx + fy) * j_g x i) <-> fx * fy = -1 \/ (forall i, j_g x i = 0)).
Proof.
  intros eig w HR u f fx fy fxx fyy fxy x.
  assert (OK : hg_ok (u2hg (w2_var w u))) by apply (reach_ok eig w HR u).
  assert (E0 : forall a : R, neqb (n := RN) a n0 = true -> a = 0).
  { intros a. cbn. unfold Reqb. destruct (Req_EM_T a 0); [auto|discriminate]. }
  destruct (self_ok (w2_var w u) f fx fy fxx fyy fxy OK ltac:(apply (reach_ok eig w HR u))) as (z & E & M & S & G).
  exists z. split; [exact E|]. cbv zeta. split; [exact M|].
  assert (Sk : srt (u2hg (w2_var w u))) by (destruct OK as (A & B & _); split; assumption).
  assert (EQ : forall i, gh (u2hg z) i = self_cell fx fy (fxx / 2) (fyy / 2) (fxy / 2) (gh (u2hg (w2_var w u)) i))
    by (intro i; rewrite G, !half_zero; reflexivity).
  assert (GR : forall i, j_g (jet_of z) i = (1 + fx) * (1 + fy) * j_g x i).
  { intro i. destruct (gh_jet z i) as [-> _]. unfold x. destruct (gh_jet (w2_var w u) i) as [-> _].
    rewrite EQ. unfold self_cell. destruct (gh (u2hg (w2_var w u)) i) as [[g h]|]; destruct (neqb _ _); cbn; ring. }
  split; [|split; [exact GR|split]].
  - intro i. unfold x. rewrite !gh_dep by (try exact S; apply Sk). rewrite EQ. unfold self_cell.
    destruct (gh (u2hg (w2_var w u)) i) as [[g h]|]; destruct (neqb _ _); cbn; intuition congruence.
  - intro i. destruct (gh_jet z i) as [-> ->]. unfold x. destruct (gh_jet (w2_var w u) i) as [-> ->].
    rewrite EQ. unfold self_cell.
    destruct (gh (u2hg (w2_var w u)) i) as [[g h]|];
      destruct (neqb _ _) eqn:Q; cbn; try (apply E0 in Q; assert (fxy = 0) by lra; subst fxy); field.
  - split.
    + intro H. destruct (Req_dec (fx * fy) (-1)) as [|NE]; [now left|right]. intro i. specialize (H i). rewrite GR in H.
      apply (Rmult_eq_reg_l (fx * fy + 1)); [|lra]. nra.
    + intros [H|H] i; rewrite GR; [|rewrite H; ring]. replace ((1 + fx) * (1 + fy)) with (fx + fy + (fx * fy + 1)) by ring. rewrite H. ring.
Qed.
