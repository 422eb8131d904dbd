(** * FunEffProofs: user functions with side effects *)

From Coq Require Import List ZArith Bool Permutation Lia.
From Verif Require Import Base Num UReal World HessGrad UReal2 World2 Functions FunEff SpecFunEff.
Import ListNotations.

Lemma flat_nth {A : Type} (l : list A) :
  flat_map (fun j => match nth_error l j with Some p => [p] | None => [] end) (seq 0 (length l)) = l.
Proof.
  assert (G : forall (l : list A) k, flat_map (fun j => match nth_error l (j - k) with Some p => [p] | None => [] end) (seq k (length l)) = l).
  { clear l. induction l as [|p l IH]; intro k; [reflexivity|]. cbn [length seq flat_map]. rewrite Nat.sub_diag. cbn [nth_error app]. f_equal.
    transitivity (flat_map (fun j => match nth_error l (j - S k) with Some p => [p] | None => [] end) (seq (S k) (length l))); [|apply IH].
    rewrite !flat_map_concat_map. f_equal. apply map_ext_in. intros j Hj. apply in_seq in Hj.
    replace (j - k) with (S (j - S k)) by lia. reflexivity. }
  transitivity (flat_map (fun j => match nth_error l (j - 0) with Some p => [p] | None => [] end) (seq 0 (length l))); [|apply G].
  apply flat_map_ext. intro j. now rewrite Nat.sub_0_r.
Qed.

Section Gen.
  Context {N : Num} {X : Type}.
  Variable U : user N X.
  Variable F : nat -> list N -> N + X.
  Variable E : nat -> list N -> world2 N -> world2 N.
  Hypothesis HU : behaves U F E.
  Variable qs : list (query (N := N)).
  Variable w0 : world2 N.
  Definition stable (w : world2 N) : Prop := forall q, In q qs -> snd q w = snd q w0.
  Hypothesis HS : forall i p w, stable w -> stable (E i p w).

  Let pts : log N := map (fun q => (fst q, snd q w0)) qs.
  Definition calls_of (ord : list nat) : log N :=
    flat_map (fun j => match nth_error pts j with Some p => [p] | None => [] end) ord.
  Definition answer (p : nat * list N) : N + X := F (fst p) (snd p).

  Lemma pts_nth j : nth_error pts j = match nth_error qs j with Some q => Some (fst q, snd q w0) | None => None end.
  Proof. unfold pts. clear HS. revert j. induction qs as [|q l IH]; intros [|j]; try reflexivity. apply IH. Qed.

  Lemma ask_all_returns ord : forall a w l, stable w -> (forall p, In p (calls_of ord) -> exists r, answer p = inl r) ->
    exists a', ask_all U qs ord a w l = ((after E (calls_of ord) w, l ++ calls_of ord), inl a') /\
      (forall j, ~ In j ord -> a' j = a j) /\
      (forall j p, In j ord -> nth_error pts j = Some p -> answer p = inl (a' j)).
  Proof.
    induction ord as [|j ord IH]; intros a w l HW HA.
    - exists a. split; [cbn; rewrite app_nil_r; reflexivity|]. split; [reflexivity|]. intros j p [].
    - cbn [calls_of flat_map] in HA |- *. fold (calls_of ord) in HA |- *.
      cbn [ask_all]. assert (P := pts_nth j). destruct (nth_error qs j) as [[i args]|] eqn:Q; cbn [fst snd] in P; rewrite P in HA |- *.
      + assert (Ha : args w = args w0) by (apply nth_error_In in Q; exact (HW (i, args) Q)).
        destruct (HA (i, args w0)) as [r Hr]; [now left|]. unfold answer in Hr. cbn [fst snd] in Hr.
        rewrite HU, Ha, Hr.
        destruct (IH (fun k => if Nat.eqb k j then r else a k) (E i (args w0) w) (l ++ [(i, args w0)])) as (a' & EQ & O1 & O2).
        { now apply HS. } { intros p Hp. apply HA. now right. }
        exists a'. split.
        { rewrite EQ. unfold after. cbn [fold_left app fst snd]. rewrite <- app_assoc. reflexivity. }
        split.
        * intros k Hk. rewrite O1 by (intro; apply Hk; now right). destruct (Nat.eqb_spec k j); [|reflexivity].
          subst. exfalso. apply Hk. now left.
        * intros k p Hk Hp. destruct (in_dec Nat.eq_dec k ord) as [Hin|Hin]; [now apply O2|].
          destruct Hk as [<-|Hk]; [|contradiction]. rewrite O1 by exact Hin. rewrite Nat.eqb_refl.
          rewrite P in Hp. injection Hp as <-. exact Hr.
      + destruct (IH a w l HW) as (a' & EQ & O1 & O2); [intros p Hp; apply HA; exact Hp|].
        exists a'. split; [exact EQ|]. split.
        * intros k Hk. apply O1. intro; apply Hk; now right.
        * intros k p [<-|Hk] Hp; [congruence|]. now apply O2.
  Qed.

  Lemma ask_all_throws ord : forall a w l, stable w -> (exists p e, In p (calls_of ord) /\ answer p = inr e) ->
    exists made p rest e, calls_of ord = made ++ p :: rest /\ (forall q, In q made -> exists r, answer q = inl r) /\ answer p = inr e /\
      ask_all U qs ord a w l = ((after E (made ++ [p]) w, l ++ made ++ [p]), inr e).
  Proof.
    induction ord as [|j ord IH]; intros a w l HW (p & e & Hp & He).
    - destruct Hp.
    - cbn [calls_of flat_map] in Hp |- *. fold (calls_of ord) in Hp |- *.
      cbn [ask_all]. assert (P := pts_nth j). destruct (nth_error qs j) as [[i args]|] eqn:Q; cbn [fst snd] in P; rewrite P in Hp |- *.
      + assert (Ha : args w = args w0) by (apply nth_error_In in Q; exact (HW (i, args) Q)).
        rewrite HU, Ha. destruct (F i (args w0)) as [r|e'] eqn:Hr.
        * destruct Hp as [<-|Hp]; [unfold answer in He; cbn in He; congruence|].
          destruct (IH (fun k => if Nat.eqb k j then r else a k) (E i (args w0) w) (l ++ [(i, args w0)])) as (made & p' & rest & e2 & C & M & A & EQ).
          { now apply HS. } { exists p, e. auto. }
          exists ((i, args w0) :: made), p', rest, e2. split; [cbn; now rewrite C|]. split.
          { intros q [<-|Hq]; [exists r; exact Hr|now apply M]. }
          split; [exact A|]. rewrite EQ. unfold after. cbn [fold_left app fst snd]. rewrite <- app_assoc. reflexivity.
        * exists [], (i, args w0), (calls_of ord), e'. split; [reflexivity|]. split; [intros q []|]. split; [exact Hr|]. reflexivity.
      + destruct (IH a w l HW) as (made & p' & rest & e2 & C & M & A & EQ); [exists p, e; auto|].
        exists made, p', rest, e2. auto.
  Qed.

  Lemma calls_seq : calls_of (seq 0 (length qs)) = pts.
  Proof.
    assert (L : length qs = length pts) by (unfold pts; symmetry; apply map_length).
    rewrite L. apply flat_nth.
  Qed.
  Lemma calls_perm ord : Permutation ord (seq 0 (length qs)) -> Permutation (calls_of ord) pts.
  Proof. intro H. rewrite <- calls_seq. unfold calls_of. now apply Permutation_flat_map. Qed.
End Gen.

Section Calls.
  Context {N : Num} {X : Type}.

  Lemma points_eq (c : fcall N) w : points c w = map (fun q => (fst q, snd q w)) (queries c).
  Proof. destruct c; reflexivity. Qed.
  Lemma order_perm (c : fcall N) : good_order c -> Permutation (order c) (seq 0 (length (queries c))).
  Proof. destruct c; cbn [order good_order]; intro H; try exact H; apply Permutation_refl. Qed.
  Lemma spares_stable (E : nat -> list N -> world2 N -> world2 N) c w0 : spares E c ->
    forall i p w, stable (queries c) w0 w -> stable (queries c) w0 (E i p w).
  Proof.
    intros S i p w H q Hq. rewrite <- (H q Hq).
    assert (G := S i p w). revert Hq G. clear. unfold at1.
    destruct c; cbn [queries first_order operands_f]; intros Hq G;
      repeat (destruct Hq as [<-|Hq]; [cbn [snd]; unfold at1, at2, bt1, bt2; rewrite !G by (cbn; tauto); reflexivity|]); destruct Hq.
  Qed.
  Lemma after_spares (E : nat -> list N -> world2 N -> world2 N) c l : spares E c -> forall w x, In x (operands_f c) ->
    if first_order c then w_var (w2_w (after E l w)) x = w_var (w2_w w) x else w2_var (after E l w) x = w2_var w x.
  Proof.
    intros S. induction l as [|[i p] l IH]; intros w x Hx; [destruct (first_order c); reflexivity|].
    unfold after in *. cbn [fold_left fst snd]. specialize (IH (E i p w) x Hx). specialize (S i p w x Hx).
    destruct (first_order c); congruence.
  Qed.

  Definition value (F : nat -> list N -> N + X) (i : nat) (p : list N) : N := match F i p with inl r => r | inr _ => n0 end.
  Lemma finish_eq (F : nat -> list N -> N + X) (c : fcall N) w w' (a : nat -> N) :
    (forall x, In x (operands_f c) -> if first_order c then w_var (w2_w w') x = w_var (w2_w w) x else w2_var w' x = w2_var w x) ->
    (forall j p, nth_error (points c w) j = Some p -> F (fst p) (snd p) = inl (a j)) ->
    finish c a w' = without_effects c (value F) w'.
  Proof.
    intros HO HA.
    assert (HV : forall j p, nth_error (points c w) j = Some p -> a j = value F (fst p) (snd p)).
    { intros j p Hj. unfold value. now rewrite (HA j p Hj). }
    clear HA. destruct c; cbn [operands_f first_order points map] in HO, HV;
      assert (V0 := HV 0 _ eq_refl); assert (V1 := HV 1 _ eq_refl);
      try (assert (V2 := HV 2 _ eq_refl)); try (assert (V3 := HV 3 _ eq_refl)); try (assert (V4 := HV 4 _ eq_refl));
      try (assert (V5 := HV 5 _ eq_refl)); try (assert (V6 := HV 6 _ eq_refl)); clear HV; cbn [fst snd] in *;
      cbn [finish without_effects]; unfold put1, uunary, ubinary, uunary_step, ubinary_step, uunary2, ubinary2,
        uunary2_deriv, uunary2_step, ubinary2_deriv, ubinary2_step;
      rewrite ?V0, ?V1; try rewrite V2; try rewrite V3; try rewrite V4; try rewrite V5; try rewrite V6;
      rewrite !HO by (cbn; tauto); try reflexivity;
      match goal with |- context [assign_result ?x ?y ?z] => destruct (assign_result x y z); reflexivity end.
  Qed.
End Calls.

Lemma C86_functions_return_proof : forall (N : Num) (X : Type) (U : user N X) F E (c : fcall N) (w : world2 N),
  behaves U F E -> spares E c -> good_order c ->
  forall G : nat -> list N -> N, (forall p, In p (points c w) -> F (fst p) (snd p) = inl (G (fst p) (snd p))) ->
  exists calls, Permutation calls (points c w) /\ (in_sequence c = true -> calls = points c w) /\
    let w' := after E calls w in
    exec_f U c w = ((fst (without_effects c G w'), calls), inl (snd (without_effects c G w'))).
Proof.
  intros N X U F E c w HU HS HO G HG.
  assert (Ex : forall (c : fcall N) (G1 G2 : nat -> list N -> N) w', (forall p, In p (points c w') -> G1 (fst p) (snd p) = G2 (fst p) (snd p)) ->
    without_effects c G1 w' = without_effects c G2 w').
  { clear. intros c G1 G2 w' H.
    assert (V : forall j p, nth_error (points c w') j = Some p -> G1 (fst p) (snd p) = G2 (fst p) (snd p)).
    { intros j p Hj. apply H. eapply nth_error_In. exact Hj. }
    clear H. destruct c; cbn [points map] in V;
      assert (V0 := V 0 _ eq_refl); assert (V1 := V 1 _ eq_refl);
      try (assert (V2 := V 2 _ eq_refl)); try (assert (V3 := V 3 _ eq_refl)); try (assert (V4 := V 4 _ eq_refl));
      try (assert (V5 := V 5 _ eq_refl)); try (assert (V6 := V 6 _ eq_refl)); clear V; cbn [fst snd] in *;
      cbn [without_effects]; unfold uunary, ubinary, uunary_step, ubinary_step, uunary2, ubinary2,
        uunary2_deriv, uunary2_step, ubinary2_deriv, ubinary2_step;
      rewrite ?V0, ?V1; try rewrite V2; try rewrite V3; try rewrite V4; try rewrite V5; try rewrite V6; reflexivity. }
  assert (ST : stable (queries c) w w) by (intros q _; reflexivity).
  destruct (ask_all_returns U F E HU (queries c) w (spares_stable E c w HS) (order c) (fun _ => n0) w [] ST) as (a & EQ & _ & HA).
  { intros p Hp. eexists. apply HG. rewrite points_eq. eapply Permutation_in; [|exact Hp]. apply calls_perm, order_perm, HO. }
  exists (calls_of (queries c) w (order c)).
  assert (PM : Permutation (calls_of (queries c) w (order c)) (points c w)).
  { rewrite points_eq. apply calls_perm, order_perm, HO. }
  split; [exact PM|]. split.
  { intro I. rewrite points_eq. replace (order c) with (seq 0 (length (queries c))) by (destruct c; try discriminate I; reflexivity). apply calls_seq. }
  set (calls := calls_of (queries c) w (order c)) in *. cbv zeta.
  unfold exec_f. rewrite EQ. cbn [app].
  rewrite (finish_eq F c w (after E calls w) a).
  - rewrite (Ex c (value F) G).
    + destruct (without_effects c G (after E calls w)); reflexivity.
    + intros p Hp. unfold value. rewrite HG; [reflexivity|].
      assert (PE : points c (after E calls w) = points c w).
      { assert (O := after_spares E c calls HS w). revert O. clear. intro O.
        destruct c; cbn [points operands_f first_order map] in O |- *; rewrite !O by (cbn; tauto); reflexivity. }
      rewrite <- PE. exact Hp.
  - intros x Hx. apply after_spares; assumption.
  - intros j p Hj. rewrite points_eq in Hj. apply HA; [|exact Hj].
    apply (Permutation_in j (Permutation_sym (order_perm c HO))). apply in_seq. split; [lia|].
    assert (LQ : length (queries c) = length (map (fun q => (fst q, snd q w)) (queries c))) by (symmetry; apply map_length).
    rewrite LQ. apply nth_error_Some. rewrite Hj. discriminate.
Qed.

Lemma C86_functions_throw_proof : forall (N : Num) (X : Type) (U : user N X) F E (c : fcall N) (w : world2 N),
  behaves U F E -> spares E c -> good_order c ->
  (exists p e, In p (points c w) /\ F (fst p) (snd p) = inr e) ->
  exists made p rest e, Permutation (made ++ p :: rest) (points c w) /\
    (in_sequence c = true -> made ++ p :: rest = points c w) /\
    (forall q, In q made -> exists r, F (fst q) (snd q) = inl r) /\ F (fst p) (snd p) = inr e /\
    exec_f U c w = ((after E (made ++ [p]) w, made ++ [p]), inr e).
Proof.
  intros N X U F E c w HU HS HO (p0 & e0 & Hp & He).
  assert (ST : stable (queries c) w w) by (intros q _; reflexivity).
  assert (PM : Permutation (calls_of (queries c) w (order c)) (points c w)).
  { rewrite points_eq. apply calls_perm, order_perm, HO. }
  destruct (ask_all_throws U F E HU (queries c) w (spares_stable E c w HS) (order c) (fun _ => n0) w [] ST)
    as (made & p & rest & e & C & M & A & EQ).
  { exists p0, e0. split; [|exact He]. eapply Permutation_in; [apply Permutation_sym; exact PM|exact Hp]. }
  exists made, p, rest, e. rewrite <- C. split; [exact PM|]. split.
  { intro I. rewrite points_eq. replace (order c) with (seq 0 (length (queries c))) by (destruct c; try discriminate I; reflexivity). apply calls_seq. }
  split; [exact M|]. split; [exact A|]. unfold exec_f. rewrite EQ. reflexivity.
Qed.
