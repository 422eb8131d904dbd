(** * AssignWf: C35, binary_assign of UReal2 keeps the storage valid *)

From Coq Require Import List ZArith Bool Sorted Lia.
From Verif Require Import Base Num Map UReal World HessGrad Moments CheckMoments UReal2 UReal2Self World2 HessProofs U2Facts U2World.
From Verif Require Import URealProofs U2Ret SpecU2 SpecU2Run U2Proofs AssignProofs AssignProofs2 AssignProofs3 AssignSelf World2Assign SpecAssign2.
Import ListNotations.

Section Wf.
  Context {N : Num}.
  Implicit Types r : hessgrad N.
  Variable env : Z -> moms N.
  Variable K : Z -> Prop.

  Definition sound r : Prop :=
    srt r /\ (forall i d, In (i, d) (diagmap r) -> K i /\ dmom d = Some (env i)) /\
    (forall i j, In (i, j) (map fst (trimap r)) -> (i < j)%Z /\ K i /\ K j).
  Definition good (i : Z) (d : diag N) : Prop := K i /\ dmom d = Some (env i).

  Lemma in_mupd id f r i d : srt r -> In (i, d) (diagmap (hg_diag id f r)) ->
    (i = id /\ d = f (mget diag0 id (diagmap r))) \/ In (i, d) (diagmap r).
  Proof.
    intros [SD _] H. cbn [hg_diag diagmap] in H. apply In_mfind in H; [|now apply msorted_mupd].
    rewrite find_mupd in H by exact SD. destruct (keqb i id) eqn:Q.
    - apply keqb_eq in Q. subst. injection H as <-. now left.
    - right. now apply mfind_In.
  Qed.
  Lemma keys_diag id f r i : In i (keys (hg_diag id f r)) <-> i = id \/ In i (keys r).
  Proof. unfold keys, hg_diag. cbn [diagmap]. apply keys_mupd. Qed.
  Lemma key_entry r i : srt r -> In i (keys r) -> exists d, In (i, d) (diagmap r) /\ mget diag0 i (diagmap r) = d.
  Proof.
    intros [SD _] H. unfold keys in H. apply in_map_iff in H as ([j d] & <- & Hd). exists d. split; [exact Hd|].
    unfold mget. cbn [fst]. now rewrite (In_mfind _ _ _ SD Hd).
  Qed.
  Lemma sound_set id f r : sound r -> good id (f (mget diag0 id (diagmap r))) -> sound (hg_diag id f r).
  Proof.
    intros (Sr & D & T) GD. split; [|split].
    - split; [cbn; apply msorted_mupd, Sr|apply Sr].
    - intros i d H. apply in_mupd in H as [[-> ->]|H]; [exact GD|now apply D|exact Sr].
    - exact T.
  Qed.
  Lemma sound_upd id f r : sound r -> In id (keys r) -> (forall d, dmom (f d) = dmom d) -> sound (hg_diag id f r).
  Proof.
    intros S0 H E. apply sound_set; [exact S0|]. destruct (key_entry r id (proj1 S0) H) as (d & Hd & ->).
    destruct S0 as (_ & D & _). destruct (D _ _ Hd) as [A B]. split; [exact A|]. now rewrite E.
  Qed.
  Lemma sound_hhess i j f r r' : hg_hhess i j f r = Ret r' -> sound r -> K i -> K j -> (i = j -> In i (keys r)) ->
    sound r' /\ forall k, In k (keys r) -> In k (keys r').
  Proof.
    unfold hg_hhess. destruct (Z.eqb_spec i j) as [->|NE]; cbn [negb]; intros E S0 Ki Kj H.
    - injection E as <-. split; [apply sound_upd; auto|]. intros k Hk. apply keys_diag. now right.
    - unfold hg_tri in E. destruct (Z.ltb_spec i j) as [L|L]; cbn in E; [|discriminate]. injection E as <-.
      split; [|auto]. destruct S0 as (Sr & D & T). split; [split; [apply Sr|cbn; apply msorted_mupd, Sr]|]. split; [exact D|].
      intros a b Hab. cbn [trimap] in Hab. apply keys_mupd in Hab as [[= -> ->]|Hab]; [auto|now apply T].
  Qed.

  Lemma map_from_incl {A B : Type} {KO : KeyOrd A} (k : A) (m : list (A * B)) : incl (map_from k m) m.
  Proof.
    induction m as [|[a b] m IH]; cbn [map_from]; [apply incl_refl|].
    destruct (kcmp k a); try apply incl_refl. now apply incl_tl.
  Qed.
  Lemma map_at_incl {A B : Type} {KO : KeyOrd A} (k : option A) (m : list (A * B)) : incl (map_at k m) m.
  Proof. destruct k; cbn [map_at]; [apply map_from_incl|intros z []]. Qed.
  Lemma visited r px v : hess_visit (iter_at r px) = Ret v ->
    In (vid1 v, vd1 v) (diagmap r) /\ In (vid2 v, vd2 v) (diagmap r).
  Proof.
    unfold hess_visit, iter_at. cbn [it_min it_max it_tri it_skip].
    assert (A := map_at_incl (pmin px) (diagmap r)). assert (B := map_at_incl (pmax px) (diagmap r)).
    destruct (map_at (pmin px) (diagmap r)) as [|[i d1] m1]; [discriminate|].
    destruct (map_at (pmax px) (diagmap r)) as [|[j d2] m2]; [discriminate|].
    destruct (assert_ _) as [u| | |]; cbn [bind]; try discriminate.
    match goal with |- context [bind ?o _] => destruct o as [val| | |] end; cbn [bind]; try discriminate.
    intros [= <-]. cbn [vid1 vid2 vd1 vd2]. split; [apply A|apply B]; now left.
  Qed.

  Lemma sound_asn_x fx hdd px v r r' : asn_x fx hdd px v r = Ret r' -> sound r ->
    In (vid1 v, vd1 v) (diagmap r) -> In (vid2 v, vd2 v) (diagmap r) ->
    sound r' /\ forall k, In k (keys r) -> In k (keys r').
  Proof.
    intros E S0 H1 H2. unfold asn_x in E.
    assert (K1 := in_map fst _ _ H1). cbn [fst] in K1. fold (keys r) in K1.
    destruct (hg_hhess (vid1 v) (vid2 v) _ r) as [r1| | |] eqn:E1; cbn [bind] in E; try discriminate.
    destruct (sound_hhess _ _ _ _ _ E1 S0 (proj1 (proj1 (proj2 S0) _ _ H1)) (proj1 (proj1 (proj2 S0) _ _ H2)) (fun _ => K1)) as [S1 I1].
    destruct (hess_visit (iter_at r1 px)) as [v1| | |] eqn:V1; cbn [bind] in E; try discriminate.
    destruct (visited _ _ _ V1) as [A1 A2].
    assert (K2 := in_map fst _ _ A1). cbn [fst] in K2. fold (keys r1) in K2.
    destruct (hg_hhess (vid1 v1) (vid2 v1) _ r1) as [r2| | |] eqn:E2; cbn [bind] in E; try discriminate.
    destruct (sound_hhess _ _ _ _ _ E2 S1 (proj1 (proj1 (proj2 S1) _ _ A1)) (proj1 (proj1 (proj2 S1) _ _ A2)) (fun _ => K2)) as [S2 I2].
    injection E as <-. destruct (vid1 v1 =? vid2 v1)%Z.
    - split; [apply sound_set; [exact S2|]|].
      + unfold good. cbn [dmom]. exact (proj1 (proj2 S1) _ _ A1).
      + intros k Hk. apply keys_diag. right. auto.
    - split; [exact S2|]. auto.
  Qed.

  Lemma sound_asn_y fy hdd v fresh r r' : asn_y fy hdd v fresh r = Ret r' -> sound r ->
    good (vid1 v) (vd1 v) -> good (vid2 v) (vd2 v) -> (fresh = false -> vid1 v = vid2 v -> In (vid1 v) (keys r)) -> sound r'.
  Proof.
    intros E S0 G1 G2 F. unfold asn_y in E. destruct fresh.
    - destruct (Z.eqb_spec (vid1 v) (vid2 v)) as [Q|NE].
      + unfold hg_hhess at 1 in E. rewrite <- Q, Z.eqb_refl in E. cbn [negb bind] in E.
        set (r1 := hg_diag (vid1 v) _ (hg_diag (vid1 v) _ r)) in E.
        assert (S1 : sound r1 /\ In (vid1 v) (keys r1)).
        { unfold r1, hg_diag at 1. cbn [diagmap trimap hg_diag]. rewrite mupd_mupd. split.
          - apply (sound_set (vid1 v) (fun x => mkD (dgrad x) (dhh x) (dmom (vd1 v))) r S0).
            unfold good. cbn [dmom]. exact G1.
          - unfold keys. cbn [diagmap]. apply keys_mupd. now left. }
        destruct S1 as [S1 K1].
        destruct (hg_hhess (vid1 v) (vid1 v) _ r1) as [r2| | |] eqn:E2; cbn [bind] in E; try discriminate.
        destruct (sound_hhess _ _ _ _ _ E2 S1 (proj1 G1) (proj1 G1) (fun _ => K1)) as [S2 I2].
        injection E as <-. apply sound_upd; auto.
      + destruct (hg_hhess (vid1 v) (vid2 v) (fun h => h) r) as [r1| | |] eqn:E1; cbn [bind] in E; try discriminate.
        destruct (sound_hhess _ _ _ _ _ E1 S0 (proj1 G1) (proj1 G2) (fun q => False_ind _ (NE q))) as [S1 _].
        destruct (hg_hhess (vid1 v) (vid2 v) _ r1) as [r2| | |] eqn:E2; cbn [bind] in E; try discriminate.
        destruct (sound_hhess _ _ _ _ _ E2 S1 (proj1 G1) (proj1 G2) (fun q => False_ind _ (NE q))) as [S2 _].
        injection E as <-. exact S2.
    - cbn [bind] in E. destruct (hg_hhess (vid1 v) (vid2 v) _ r) as [r2| | |] eqn:E2; cbn [bind] in E; try discriminate.
      destruct (sound_hhess _ _ _ _ _ E2 S0 (proj1 G1) (proj1 G2) (F eq_refl)) as [S2 I2].
      injection E as <-. destruct (Z.eqb_spec (vid1 v) (vid2 v)) as [Q|NE]; [|exact S2].
      apply sound_upd; auto.
  Qed.

  Lemma sound_merge fx fy hxx hyy fuel : forall r px ys r', asn_merge fuel fx fy hxx hyy r px ys = Ret r' -> sound r ->
    List.Forall below_max ys -> (forall v, In v ys -> good (vid1 v) (vd1 v) /\ good (vid2 v) (vd2 v)) -> sound r'.
  Proof.
    induction fuel as [|fuel IH]; intros r px ys r' E S0 B V; cbn [asn_merge] in E; [discriminate|].
    destruct (negb (it_more (iter_at r px)) && at_end ys); [now injection E as <-|].
    destruct (it_more (iter_at r px)).
    - destruct (hess_visit (iter_at r px)) as [vx| | |] eqn:EV; cbn [bind] in E; try discriminate.
      destruct (visited _ _ _ EV) as [A1 A2].
      match type of E with bind ?o _ = _ => destruct o as [x1| | |] eqn:E1 end; cbn [bind] in E; try discriminate.
      assert (S1 : sound x1 /\ forall k, In k (keys r) -> In k (keys x1)).
      { destruct (pleb (vid vx) _); [eapply sound_asn_x; eauto|]. injection E1 as <-. auto. }
      destruct S1 as [S1 I1].
      match type of E with bind ?o _ = _ => destruct o as [x2| | |] eqn:E2 end; cbn [bind] in E; try discriminate.
      assert (S2 : sound x2).
      { match type of E2 with (if ?b then _ else _) = _ => destruct b end; [|now injection E2 as <-].
        destruct ys as [|vy ys]; [discriminate|]. destruct (V vy (or_introl eq_refl)) as [G1 G2].
        eapply sound_asn_y; eauto. intros FR _. apply I1.
        apply negb_false_iff in FR. rewrite peqb_keqb in FR. apply keqb_eq in FR.
        apply (in_map fst) in A1. cbn [fst] in A1. unfold vid in FR. injection FR as Q _. now rewrite <- Q. }
      match type of E with bind ?o _ = _ => destruct o as [px'| | |] eqn:E3 end; cbn [bind] in E; try discriminate.
      match type of E with bind ?o _ = _ => destruct o as [ys'| | |] eqn:E4 end; cbn [bind] in E; try discriminate.
      assert (SUB : incl ys' ys).
      { match type of E4 with (if ?b then _ else _) = _ => destruct b end; [|injection E4 as <-; apply incl_refl].
        destruct ys as [|a l]; cbn in E4; [discriminate|]. injection E4 as <-. now apply incl_tl, incl_refl. }
      eapply IH; [exact E|exact S2| |]; [|auto].
      apply Forall_forall. intros v Hv. rewrite Forall_forall in B. auto.
    - cbn [bind] in E.
      match type of E with bind ?o _ = _ => destruct o as [x1| | |] eqn:E1 end; cbn [bind] in E; try discriminate.
      assert (Q1 : x1 = r).
      { match type of E1 with (if ?b then _ else _) = _ => destruct b end; [discriminate|now injection E1]. }
      subst x1.
      match type of E with bind ?o _ = _ => destruct o as [x2| | |] eqn:E2 end; cbn [bind] in E; try discriminate.
      assert (S2 : sound x2).
      { match type of E2 with (if ?b then _ else _) = _ => destruct b end; [|now injection E2 as <-].
        destruct ys as [|vy ys]; [discriminate|]. destruct (V vy (or_introl eq_refl)) as [G1 G2].
        eapply sound_asn_y; eauto. intros FR _. exfalso.
        apply negb_false_iff in FR. rewrite peqb_keqb in FR. apply keqb_eq in FR.
        inversion B as [|? ? B1 B2]; subst. unfold below_max in B1. rewrite <- FR in B1. now apply klt_irrefl in B1. }
      match type of E with bind ?o _ = _ => destruct o as [px'| | |] eqn:E3 end; cbn [bind] in E; try discriminate.
      match type of E with bind ?o _ = _ => destruct o as [ys'| | |] eqn:E4 end; cbn [bind] in E; try discriminate.
      assert (SUB : incl ys' ys).
      { match type of E4 with (if ?b then _ else _) = _ => destruct b end; [|injection E4 as <-; apply incl_refl].
        destruct ys as [|a l]; cbn in E4; [discriminate|]. injection E4 as <-. now apply incl_tl, incl_refl. }
      eapply IH; [exact E|exact S2| |]; [|auto].
      apply Forall_forall. intros v Hv. rewrite Forall_forall in B. auto.
  Qed.

  Lemma sound_cross_row hxy y idi js : forall r r', asn_cross_row hxy y idi js r = Ret r' -> sound r ->
    In idi (keys r) -> K idi -> (forall j, In j js -> K j) -> sound r' /\ forall k, In k (keys r) -> In k (keys r').
  Proof.
    induction js as [|j js IH]; intros r r' E S0 H Ki Kj; cbn [asn_cross_row] in E; [injection E as <-; auto|].
    destruct (hg_hhess idi j _ r) as [r1| | |] eqn:E1; cbn [bind] in E; try discriminate.
    destruct (sound_hhess _ _ _ _ _ E1 S0 Ki (Kj _ (or_introl eq_refl)) (fun _ => H)) as [S1 I1].
    destruct (IH r1 r' E S1 (I1 _ H) Ki) as [S2 I2]; [intros k Hk; apply Kj; now right|]. split; [exact S2|auto].
  Qed.
  Lemma sound_cross hxy y is : forall r r', asn_cross hxy y is r = Ret r' -> sound r ->
    (forall i, In i is -> In i (keys r) /\ K i) -> sound r'.
  Proof.
    induction is as [|i is IH]; intros r r' E S0 H; cbn [asn_cross] in E; [now injection E as <-|].
    destruct (asn_cross_row hxy y i (i :: is) r) as [r1| | |] eqn:E1; cbn [bind] in E; try discriminate.
    destruct (sound_cross_row _ _ _ _ _ _ E1 S0 (proj1 (H _ (or_introl eq_refl))) (proj2 (H _ (or_introl eq_refl)))) as [S1 I1].
    - intros j Hj. apply H. exact Hj.
    - eapply IH; [exact E|exact S1|]. intros j Hj. destruct (H j (or_intror Hj)). auto.
  Qed.
  (** *** The same object twice *)
  Lemma sound_self_y fy hdd py fresh r r' : self_y fy hdd py fresh r = Ret r' -> sound r -> sound r'.
  Proof.
    intros E S0. unfold self_y in E.
    destruct (hess_visit (iter_at r py)) as [v| | |] eqn:V; cbn [bind] in E; try discriminate.
    destruct (visited _ _ _ V) as [A1 A2]. assert (K1 := in_map fst _ _ A1). cbn [fst] in K1. fold (keys r) in K1.
    destruct (proj1 (proj2 S0) _ _ A1) as [G1 G2]. destruct (proj1 (proj2 S0) _ _ A2) as [G3 _].
    match type of E with bind ?o _ = _ => destruct o as [r1| | |] eqn:E1 end; cbn [bind] in E; try discriminate.
    assert (S1 : sound r1).
    { destruct fresh; [|now injection E1 as <-].
      destruct (hg_hhess (vid1 v) (vid2 v) _ r) as [r2| | |] eqn:E2; cbn [bind] in E1; try discriminate.
      destruct (sound_hhess _ _ _ _ _ E2 S0 G1 G3 (fun _ => K1)) as [S2 _]. injection E1 as <-.
      destruct (vid1 v =? vid2 v)%Z; [|exact S2]. apply sound_set; [exact S2|]. split; [exact G1|exact G2]. }
    destruct (hess_visit (iter_at r1 py)) as [v1| | |] eqn:V1; cbn [bind] in E; try discriminate.
    destruct (visited _ _ _ V1) as [B1 B2]. eapply sound_asn_x; eauto.
  Qed.
  Lemma sound_self_merge fx fy hxx hyy fuel : forall r px py r', self_merge fuel fx fy hxx hyy r px py = Ret r' -> sound r -> sound r'.
  Proof.
    induction fuel as [|fuel IH]; intros r px py r' E S0; cbn [self_merge] in E; [discriminate|]. cbv zeta in E.
    destruct (negb _ && negb _); [now injection E as <-|].
    match type of E with bind ?o _ = _ => destruct o as [vx| | |] eqn:E1 end; cbn [bind] in E; try discriminate.
    match type of E with bind ?o _ = _ => destruct o as [vy| | |] eqn:E2 end; cbn [bind] in E; try discriminate.
    match type of E with bind ?o _ = _ => destruct o as [x1| | |] eqn:E3 end; cbn [bind] in E; try discriminate.
    match type of E with bind ?o _ = _ => destruct o as [x2| | |] eqn:E4 end; cbn [bind] in E; try discriminate.
    match type of E with bind ?o _ = _ => destruct o as [px'| | |] eqn:E5 end; cbn [bind] in E; try discriminate.
    match type of E with bind ?o _ = _ => destruct o as [py'| | |] eqn:E6 end; cbn [bind] in E; try discriminate.
    assert (S1 : sound x1).
    { match type of E3 with (if ?b then _ else _) = _ => destruct b end; [|now injection E3 as <-].
      destruct vx as [v|]; [|discriminate]. destruct (it_more (iter_at r px)); [|discriminate].
      destruct (hess_visit (iter_at r px)) as [u| | |] eqn:V; cbn [bind] in E1; try discriminate. injection E1 as ->.
      destruct (visited _ _ _ V) as [A1 A2]. eapply sound_asn_x; eauto. }
    assert (S2 : sound x2).
    { match type of E4 with (if ?b then _ else _) = _ => destruct b end; [|now injection E4 as <-].
      destruct vy as [v|]; [|discriminate]. eapply sound_self_y; eauto. }
    eapply IH; eauto.
  Qed.
  Lemma sound_self_row hxy idi js : forall r r', self_row hxy idi js r = Ret r' -> sound r ->
    In idi (keys r) -> K idi -> (forall j, In j js -> K j) -> sound r' /\ forall k, In k (keys r) -> In k (keys r').
  Proof.
    induction js as [|j js IH]; intros r r' E S0 H Ki Kj; cbn [self_row] in E; [injection E as <-; auto|]. cbv zeta in E.
    destruct (hg_hhess idi j _ r) as [r1| | |] eqn:E1; cbn [bind] in E; try discriminate.
    destruct (sound_hhess _ _ _ _ _ E1 S0 Ki (Kj _ (or_introl eq_refl)) (fun _ => H)) as [S1 I1].
    destruct (IH r1 r' E S1 (I1 _ H) Ki) as [S2 I2]; [intros k Hk; apply Kj; now right|]. split; [exact S2|auto].
  Qed.
  Lemma sound_self_cross hxy is : forall r r', self_cross hxy is r = Ret r' -> sound r ->
    (forall i, In i is -> In i (keys r) /\ K i) -> sound r'.
  Proof.
    induction is as [|i is IH]; intros r r' E S0 H; cbn [self_cross] in E; [now injection E as <-|].
    destruct (self_row hxy i (i :: is) r) as [r1| | |] eqn:E1; cbn [bind] in E; try discriminate.
    destruct (sound_self_row _ _ _ _ _ E1 S0 (proj1 (H _ (or_introl eq_refl))) (proj2 (H _ (or_introl eq_refl)))) as [S1 I1].
    - intros j Hj. apply H. exact Hj.
    - eapply IH; [exact E|exact S1|]. intros j Hj. destruct (H j (or_intror Hj)). auto.
  Qed.
End Wf.

Section AssignWf.
  Context {N : Num}.
  Lemma gh_key (r : hessgrad N) i : srt r -> (In i (keys r) <-> gh r i <> None).
  Proof.
    intros [SD _]. unfold gh, keys. assert (Q := mfind_None_iff i (diagmap r) SD).
    destruct (mfind i (diagmap r)) as [d|] eqn:F; cbn.
    - split; [discriminate|]. intros _. apply mfind_In in F. now apply (in_map fst) in F.
    - split; [|congruence]. intro H. now apply Q in H.
  Qed.
  Lemma assign_wf2 last env (x y : ureal2 N) f fx fy fxx fyy fxy : wf2 last env x -> wf2 last env y -> (last < maxid)%Z ->
    exists z, u2_binary_assign x y f fx fy fxx fyy fxy = Ret z /\ wf2 last env z.
  Proof.
    intros Wx Wy L.
    assert (KX := wf2_below _ _ _ Wx L). assert (KY := wf2_below _ _ _ Wy L).
    destruct (assign_ok x y f fx fy fxx fyy fxy (proj1 Wx) (proj1 Wy) KX KY) as (z & E & M & Sz & G).
    exists z. split; [exact E|].
    set (K := fun i => In i (keys (u2hg x)) \/ In i (keys (u2hg y))).
    assert (BK : forall i, K i -> (1 <= i <= last)%Z).
    { intros i [H|H]; unfold keys in H; apply in_map_iff in H as ([j d] & <- & Hd); [apply Wx in Hd|apply Wy in Hd]; apply Hd. }
    assert (S0 : sound env K (u2hg x)).
    { destruct Wx as [(SD & ST & HK & D) W]. split; [split; assumption|]. split.
      - intros i d H. split; [left; apply (in_map fst _ _ H)|apply (W i d H)].
      - intros i j H. destruct (HK i j H) as (A & B & C). split; [exact A|]. split; left; assumption. }
    assert (SZ : sound env K (u2hg z)).
    { unfold u2_binary_assign in E. cbv zeta in E.
      destruct (visits_of_hg (u2hg y) (neqb (ndiv fyy (nofZ 2)) n0) (proj1 Wy)) as (ys & EY & VY & _). rewrite EY in E. cbn [bind] in E.
      match type of E with bind ?o _ = _ => destruct o as [r1| | |] eqn:E1 end; cbn [bind] in E; try discriminate.
      assert (S1 : sound env K r1).
      { eapply sound_merge; [exact E1|exact S0|exact (visits_below _ _ KY VY)|].
        destruct VY as (_ & VV & _). intros v Hv. destruct (VV v Hv) as (A & B & _).
        split; (split; [right; first [exact (in_map fst _ _ A)|exact (in_map fst _ _ B)]|]); [apply (proj2 Wy _ _ A)|apply (proj2 Wy _ _ B)]. }
      match type of E with bind ?o _ = _ => destruct o as [r2| | |] eqn:E2 end; cbn [bind] in E; try discriminate.
      injection E as <-. cbn [u2hg]. destruct (negb _); [|now injection E2 as <-].
      eapply sound_cross; [exact E2|exact S1|]. intros i Hi. split; [exact Hi|].
      apply in_map_iff in Hi as ([j d] & <- & Hd). apply (proj1 (proj2 S1) _ _ Hd). }
    assert (KK : forall i, K i -> In i (keys (u2hg z))).
    { intros i Hi. rewrite gh_key by exact Sz. rewrite G. unfold assign_cell.
      assert (Q : gh (u2hg x) i <> None \/ gh (u2hg y) i <> None).
      { destruct Hi as [H|H]; [left|right]; apply gh_key; auto; [destruct Wx as [(A & B & _) _]|destruct Wy as [(A & B & _) _]]; split; assumption. }
      destruct (gh (u2hg x) i) as [[g h]|]; destruct (gh (u2hg y) i) as [[g' h']|]; destruct (neqb _ _); cbn; intuition congruence. }
    destruct SZ as (_ & D & T). split.
    - split; [apply Sz|]. split; [apply Sz|]. split.
      + intros i j H. destruct (T i j H) as (A & B & C). split; [exact A|]. split; apply KK; assumption.
      + intros i d H. destruct (D i d H) as [_ ->]. discriminate.
    - intros i d H. destruct (D i d H) as [A B]. split; [now apply BK|exact B].
  Qed.
  Lemma self_wf2 last env (x : ureal2 N) f fx fy fxx fyy fxy : wf2 last env x -> (last < maxid)%Z ->
    exists z, u2_self_assign x f fx fy fxx fyy fxy = Ret z /\ wf2 last env z.
  Proof.
    intros Wx L. assert (KX := wf2_below _ _ _ Wx L).
    destruct (self_ok x f fx fy fxx fyy fxy (proj1 Wx) KX) as (z & E & M & Sz & G).
    exists z. split; [exact E|].
    set (K := fun i => In i (keys (u2hg x))).
    assert (BK : forall i, K i -> (1 <= i <= last)%Z).
    { intros i H. unfold K, keys in H; apply in_map_iff in H as ([j d] & <- & Hd). apply Wx in Hd. apply Hd. }
    assert (S0 : sound env K (u2hg x)).
    { destruct Wx as [(SD & ST & HK & D) W]. split; [split; assumption|]. split.
      - intros i d H. split; [apply (in_map fst _ _ H)|apply (W i d H)].
      - intros i j H. destruct (HK i j H) as (A & B & C). split; [exact A|]. split; assumption. }
    assert (SZ : sound env K (u2hg z)).
    { unfold u2_self_assign in E. cbv zeta in E.
      match type of E with bind ?o _ = _ => destruct o as [r1| | |] eqn:E1 end; cbn [bind] in E; try discriminate.
      assert (S1 : sound env K r1) by (eapply sound_self_merge; [exact E1|exact S0]).
      match type of E with bind ?o _ = _ => destruct o as [r2| | |] eqn:E2 end; cbn [bind] in E; try discriminate.
      injection E as <-. cbn [u2hg]. destruct (negb _); [|now injection E2 as <-].
      eapply sound_self_cross; [exact E2|exact S1|]. intros i Hi. split; [exact Hi|].
      apply in_map_iff in Hi as ([j d] & <- & Hd). apply (proj1 (proj2 S1) _ _ Hd). }
    assert (KK : forall i, K i -> In i (keys (u2hg z))).
    { intros i Hi. rewrite gh_key by exact Sz. rewrite G. unfold self_cell.
      assert (Q : gh (u2hg x) i <> None) by (apply gh_key; [destruct Wx as [(A & B & _) _]; split; assumption|exact Hi]).
      destruct (gh (u2hg x) i) as [[g h]|]; destruct (neqb _ _); cbn; congruence. }
    destruct SZ as (_ & D & T). split.
    - split; [apply Sz|]. split; [apply Sz|]. split.
      + intros i j H. destruct (T i j H) as (A & B & C). split; [exact A|]. split; apply KK; assumption.
      + intros i d H. destruct (D i d H) as [_ ->]. discriminate.
    - intros i d H. destruct (D i d H) as [A B]. split; [now apply BK|exact B].
  Qed.
End AssignWf.

Section Run3.
  Context {N : Num}.
  Hypothesis zero_not_neg : nltb (n0 : N) n0 = false.
  Variable eig : list (list N) -> option (list N).

  Lemma gen_run3 cs : forall env w, wwf2 env w -> List.Forall nary_ok2 (plain3 cs) -> List.Forall thr_ok (plain3 cs) ->
    (w2_last w + Z.of_nat (count_new2 (plain3 cs)) < maxid)%Z ->
    exists env' w', run3 eig w cs = Ret w' /\ wwf2 env' w' /\
      (w2_last w <= w2_last w' <= w2_last w + Z.of_nat (count_new2 (plain3 cs)))%Z.
  Proof.
    induction cs as [|c cs IH]; intros env w W F F2 B.
    - exists env, w. split; [reflexivity|]. split; [exact W|]. cbn; lia.
    - destruct c as [c|v x f fx fy fxx fyy fxy].
      + change (plain3 (World2Assign.F2 c :: cs)) with (c :: plain3 cs) in *.
        inversion F as [|? ? Fc Fcs]; subst. inversion F2 as [|? ? Tc Tcs]; subst. rewrite count_new2_cons in *.
        destruct (gen_exec2 zero_not_neg eig env w c W Fc Tc) as (env1 & W1 & E1' & L1 & O & _); [destruct (is_new2 c); lia|].
        destruct (IH env1 (fst (exec2 eig w c)) W1 Fcs Tcs) as (env' & w' & Er & W' & L'); [lia|].
        exists env', w'. cbn [run3 exec3]. destruct (exec2 eig w c) as [w1 o]. cbn [fst snd] in *.
        split; [destruct O as [-> | [e ->]]; exact Er|]. split; [exact W'|]. lia.
      + change (plain3 (FAssign v x f fx fy fxx fyy fxy :: cs)) with (plain3 cs) in *.
        destruct W as [W1 W2].
        assert (L : (w2_last w < maxid)%Z) by lia.
        cbn [run3 exec3].
        assert (R : exists z, (if Nat.eqb v x then u2_self_assign (w2_var w v) (f (u2mu (w2_var w v)) (u2mu (w2_var w x))) (fx (u2mu (w2_var w v)) (u2mu (w2_var w x))) (fy (u2mu (w2_var w v)) (u2mu (w2_var w x))) (fxx (u2mu (w2_var w v)) (u2mu (w2_var w x))) (fyy (u2mu (w2_var w v)) (u2mu (w2_var w x))) (fxy (u2mu (w2_var w v)) (u2mu (w2_var w x)))
            else u2_binary_assign (w2_var w v) (w2_var w x) (f (u2mu (w2_var w v)) (u2mu (w2_var w x))) (fx (u2mu (w2_var w v)) (u2mu (w2_var w x))) (fy (u2mu (w2_var w v)) (u2mu (w2_var w x))) (fxx (u2mu (w2_var w v)) (u2mu (w2_var w x))) (fyy (u2mu (w2_var w v)) (u2mu (w2_var w x))) (fxy (u2mu (w2_var w v)) (u2mu (w2_var w x)))) = Ret z /\ wf2 (w2_last w) env z).
        { destruct (Nat.eqb v x); [apply self_wf2|apply assign_wf2]; auto. }
        destruct R as (z & Ez & Wz).
        rewrite Ez. cbn [assign2].
        apply (IH env (mkW2 (w2_w w) (upd2 (w2_var w) v z))); auto.
        split; [exact W1|]. intro u. cbn [w2_var]. unfold upd2. change (w2_last (mkW2 (w2_w w) _)) with (w2_last w).
        destruct (Nat.eqb u v); auto.
  Qed.
End Run3.

Lemma C35_storage_kept_proof : forall (N : Num) (eig : list (list N) -> option (list N)),
  nltb (n0 : N) n0 = false -> forall cs : list (call3 N), legal3 cs ->
  exists (w : world2 N) (moments : Z -> moms N), run3 eig w2_init cs = Ret w /\
  (forall v : nat, let h := u2hg (w2_var w v) in
    StronglySorted Z.lt (map fst (diagmap h)) /\
    NoDup (map fst (trimap h)) /\
    (forall i d, In (i, d) (diagmap h) -> (1 <= i <= w2_last w)%Z /\ dmom d = Some (moments i)) /\
    (forall i j, In (i, j) (map fst (trimap h)) ->
       (i < j)%Z /\ In i (map fst (diagmap h)) /\ In j (map fst (diagmap h)))) /\
  (forall u v t : nat, let x := w2_var w u in let y := w2_var w v in let z := w2_var w t in
    (forall n, (1 <= n <= 4)%Z -> exists m, u2_m x n = Ret m) /\
    (exists c, u2_cov x y = Ret c) /\
    (exists i, u2_indepid x = Ret i) /\
    (forall p, exists b, u2_all p x = Ret b) /\
    ((exists g, u2_grad z x = Ret g) \/ u2_grad z x = Throw InvalidArgument) /\
    ((exists g, u2_hess z x y = Ret g) \/ u2_hess z x y = Throw InvalidArgument) /\
    (forall f f1 f2, exists r, u2_unary x f f1 f2 = Ret r) /\
    (forall f fx fy fxx fyy fxy, exists r, u2_binary x y f fx fy fxx fyy fxy = Ret r) /\
    (u <> v -> forall f fx fy fxx fyy fxy, exists r, u2_binary_assign x y f fx fy fxx fyy fxy = Ret r) /\
    (forall f fx fy fxx fyy fxy, exists r, u2_self_assign x f fx fy fxx fyy fxy = Ret r)).
Proof.
  intros N eig Z0 cs (F & T & C). apply max_new_lt in C.
  destruct (gen_run3 Z0 eig cs (fun _ => mkM n0 n0 n0 n0 n0 n0) w2_init (wwf2_init _) F) as (env & w & E & [_ W] & L).
  - eapply Forall_impl; [|exact T]. intros [] H; exact H.
  - cbn; lia.
  - assert (B : (w2_last w < maxid)%Z) by (cbn in L; lia).
    exists w, env. split; [exact E|]. split.
    + intros v h. destruct (W v) as [(SD & ST & HK & _) HB].
      split; [|split; [|split]].
      * clear - SD. unfold msorted in SD. fold h in SD. induction SD as [|k l S IH L]; constructor; [exact IH|].
        rewrite Forall_forall in *. intros x Hx. apply klt_lt. now apply L.
      * clear - ST. unfold msorted in ST. fold h in ST. induction ST as [|k l S IH L]; constructor; [|exact IH].
        rewrite Forall_forall in L. intro H. apply L in H. apply klt_ZZ in H. lia.
      * exact HB.
      * exact HK.
    + intros u v t x y z. destruct (W u) as [OKx _]. destruct (W v) as [OKy _]. fold x in OKx. fold y in OKy.
      split; [intros n Hn; now apply u2_m_ret|]. split; [now apply u2_cov_ret|].
      split; [apply u2_indepid_ret|]. split; [intro p; now apply u2_all_ret|].
      split; [apply u2_grad_safe|]. split; [apply u2_hess_safe|].
      split; [|split; [|split]].
      * intros f f1 f2. destruct (unary_wf2 _ _ x f f1 f2 (W u)) as (r & Er & _). eauto.
      * intros. destruct (binary_wf2 _ _ x y f fx fy fxx fyy fxy (W u) (W v)) as (r & Er & _); [lia|]. eauto.
      * intros _ f fx fy fxx fyy fxy. destruct (assign_wf2 _ _ x y f fx fy fxx fyy fxy (W u) (W v)) as (r & Er & _); [lia|]. eauto.
      * intros f fx fy fxx fyy fxy. destruct (self_wf2 _ _ x f fx fy fxx fyy fxy (W u)) as (r & Er & _); [lia|]. eauto.
Qed.
