(** * StreamFullProofs: chains of both classes, on any buffer (C89) *)

From Coq Require Import List ZArith Bool Reals Ascii String Lra Lia.
From Verif Require Import Base Num Map UReal World HessGrad Moments CheckMoments UReal2 World2 SpecObs SpecU2Run URealProofs MomStats
  Io SpecIo IoProofs IoProofs2 IoProofs3 IoProofs4 IoProofs5 Stream SpecStream StreamProofs StreamFull SpecStreamFull Demo Demo2 Demo3 StreamDemo.
Import ListNotations.
Local Open Scope R_scope.

Lemma us_nonneg (x : ureal RN) : 0 <= u_s x.
Proof.
  unfold u_s. destruct (0 <=? uid x)%Z; [apply Rabs_pos|]. cbn. unfold Rleb. destruct (Rle_dec 0 (usdev x)); [assumption|apply sqrt_pos].
Qed.
Lemma insert_endless os t wf : insert_on endless wf os t = insert_string os t.
Proof. unfold insert_on, insert_string, endless. destruct (os_good os); [|reflexivity]. cbv zeta. now rewrite Nat.leb_refl. Qed.

Definition writes_text prop (w : world2 RN) (i : item2) (t : str) : Prop :=
  forall tk wf os, put_on tk wf prop w os i = Ret (insert_on tk wf os t).
Definition sets prop (w : world2 RN) (i : item2) (f : ostream -> ostream) : Prop :=
  (forall tk wf os, put_on tk wf prop w os i = Ret (f os)) /\
  forall os, os_buf (f os) = os_buf os /\ os_good (f os) = os_good os.
Definition plain_item (i : item2) : Prop := match i with IOne (IWidth _) => False | _ => True end.

Lemma put_cases eig prop w i : reachable2 eig w ->
  (exists t, writes_text prop w i t /\ piece2 prop w i t) \/
  (exists f, sets prop w i f /\ (plain_item i -> piece2 prop w i [] /\ forall os, os_width (f os) = os_width os)).
Proof.
  intro Rw. destruct i as [[v|t|wd|c|a|p|f|s]|v].
  - left. destruct (format_shows (u_n (w_var (w2_w w) v)) (u_s (w_var (w2_w w) v)) (us_nonneg _)) as (t & E & Sh).
    exists t. split; [|exact Sh]. intros tk wf os. cbn [put_on]. unfold print_ureal_on. rewrite E. reflexivity.
  - left. exists t. split; [intros tk wf os; reflexivity|reflexivity].
  - right. exists (fun os => let 'mkOs b g _ c a p f s := os in mkOs b g wd c a p f s).
    split; [split; [intros tk wf [ ]; reflexivity|intros [ ]; split; reflexivity]|intros []].
  - right. exists (fun os => let 'mkOs b g wd _ a p f s := os in mkOs b g wd c a p f s).
    split; [split; [intros tk wf [ ]; reflexivity|intros [ ]; split; reflexivity]|]. intros _. split; [reflexivity|intros [ ]; reflexivity].
  - right. exists (fun os => let 'mkOs b g wd c _ p f s := os in mkOs b g wd c a p f s).
    split; [split; [intros tk wf [ ]; reflexivity|intros [ ]; split; reflexivity]|]. intros _. split; [reflexivity|intros [ ]; reflexivity].
  - right. exists (fun os => let 'mkOs b g wd c a _ f s := os in mkOs b g wd c a p f s).
    split; [split; [intros tk wf [ ]; reflexivity|intros [ ]; split; reflexivity]|]. intros _. split; [reflexivity|intros [ ]; reflexivity].
  - right. exists (fun os => let 'mkOs b g wd c a p _ s := os in mkOs b g wd c a p f s).
    split; [split; [intros tk wf [ ]; reflexivity|intros [ ]; split; reflexivity]|]. intros _. split; [reflexivity|intros [ ]; reflexivity].
  - right. exists (fun os => let 'mkOs b g wd c a p f _ := os in mkOs b g wd c a p f s).
    split; [split; [intros tk wf [ ]; reflexivity|intros [ ]; split; reflexivity]|]. intros _. split; [reflexivity|intros [ ]; reflexivity].
  - left. destruct (C89_ureal2_proof eig w Rw prop v) as (n & m2 & t & En & Ev & P1 & P2 & P3).
    set (os0 := mkOs [] true 0 " "%char AdjLeft 0 0 false).
    assert (ET : exists u, (n0 <- u2_n prop (w2_var w v);; s <- sdev_ureal2 (w2_var w v);; format (Fin n0) s default_errdig default_sep) = Ret u).
    { destruct (P3 os0) as (os' & E & _). unfold print_ureal2 in E. destruct (u2_n prop (w2_var w v)) as [q| | |]; cbn [bind] in *; try discriminate.
      destruct (sdev_ureal2 (w2_var w v)) as [s| | |]; cbn [bind] in *; try discriminate.
      destruct (format (Fin q) s default_errdig default_sep); cbn [bind] in *; try discriminate. eauto. }
    destruct ET as (u & EU).
    assert (PR : forall os, print_ureal2 prop os (w2_var w v) = Ret (insert_string os u)).
    { intro os. unfold print_ureal2. rewrite En in EU |- *. cbn [bind] in *. destruct (sdev_ureal2 (w2_var w v)); cbn [bind] in *; try discriminate.
      rewrite EU. reflexivity. }
    assert (UT : u = t).
    { destruct (P3 os0) as (os' & E & F & _). rewrite PR in E. injection E as <-.
      destruct (F eq_refl) as (out & (p & Fp & Eo & Lo) & Rc & _). unfold insert_string, os0 in Rc. cbn in Rc. rewrite app_nil_r in Rc.
      cbn in Eo. rewrite Eo in Rc. cbn in Lo. rewrite Eo, app_length in Lo.
      assert (p = []) by (destruct p; [reflexivity|cbn in Lo; lia]). subst p. now rewrite app_nil_r in Rc. }
    subst u. exists t. split.
    + intros tk wf os. cbn [put_on]. unfold print_ureal2_on. rewrite En in EU |- *. cbn [bind] in *. destruct (sdev_ureal2 (w2_var w v)); cbn [bind] in *; try discriminate.
      rewrite EU. reflexivity.
    + exists n, m2. split; [exact En|]. split; [exact Ev|]. split; [intro H; apply (P1 H)|exact P2].
Qed.

Lemma chain_bad eig prop w tk wf is : reachable2 eig w -> forall os, os_good os = false ->
  exists os', chain_on tk wf prop w os is = Ret os' /\ os_buf os' = os_buf os /\ os_good os' = false.
Proof.
  intro Rw. induction is as [|i is IH]; intros os B; [exists os; auto|]. cbn [chain_on].
  destruct (put_cases eig prop w i Rw) as [(t & Wt & _)|(f & (St & K) & _)].
  - rewrite Wt. cbn [bind]. unfold insert_on at 1. rewrite B. now apply IH.
  - rewrite St. cbn [bind]. destruct (K os) as [K1 K2]. destruct (IH (f os)) as (os' & E & B1 & G1); [congruence|]. exists os'. split; [exact E|]. split; congruence.
Qed.
Lemma endless_good os t wf : os_good os = true -> exists seq, insert_on endless wf os t = set_buf os (os_buf os ++ seq) 0 /\
  forall tk wf', insert_on tk wf' os t = (if (List.length seq <=? tk (os_buf os) seq)%nat then set_buf os (os_buf os ++ seq) 0
    else mkOs (os_buf os ++ firstn (tk (os_buf os) seq) seq) false wf' (os_fill os) (os_adjust os) (os_precision os) (os_float os) (os_showpos os)).
Proof.
  intro Gd. rewrite insert_endless. unfold insert_string, insert_on. rewrite Gd. cbv zeta.
  set (seq := match os_adjust os with AdjLeft => _ | _ => _ end). exists seq. split; [reflexivity|]. intros. reflexivity.
Qed.
Lemma chain_grows eig prop w wf is : reachable2 eig w -> forall os, os_good os = true ->
  exists os', chain_on endless wf prop w os is = Ret os' /\ prefix (os_buf os) (os_buf os') /\ os_good os' = true.
Proof.
  intro Rw. induction is as [|i is IH]; intros os B; [exists os; split; [reflexivity|]; split; [exists []; now rewrite app_nil_r|exact B]|]. cbn [chain_on].
  destruct (put_cases eig prop w i Rw) as [(t & Wt & _)|(f & (St & K) & _)].
  - rewrite Wt. cbn [bind]. destruct (endless_good os t wf B) as (seq & -> & _).
    destruct (IH (set_buf os (os_buf os ++ seq) 0) B) as (os' & E & (c & P) & G1). exists os'. split; [exact E|]. split; [|exact G1].
    exists (seq ++ c). rewrite P. cbn. now rewrite app_assoc.
  - rewrite St. cbn [bind]. destruct (K os) as [K1 K2]. destruct (IH (f os)) as (os' & E & P & G1); [congruence|]. exists os'. split; [exact E|].
    split; [now rewrite <- K1|exact G1].
Qed.

Lemma C89_any_buffer_proof : forall eig (w : world2 RN), reachable2 eig w -> forall prop os is, os_good os = true ->
  exists os0, (forall wf, chain_on endless wf prop w os is = Ret os0) /\ os_good os0 = true /\
  forall takes wfail, exists os', chain_on takes wfail prop w os is = Ret os' /\
    prefix (os_buf os) (os_buf os') /\ prefix (os_buf os') (os_buf os0) /\
    (os_good os' = true -> os' = os0) /\
    ((forall b t, (List.length t <= takes b t)%nat) -> os' = os0) /\
    (forall n, takes = room n -> (List.length (os_buf os) <= n)%nat ->
       os_buf os' = firstn n (os_buf os0) /\ (os_good os' = true <-> (List.length (os_buf os0) <= n)%nat)).
Proof.
  intros eig w Rw prop os is. revert os. induction is as [|i is IH]; intros os Gd.
  - exists os. split; [reflexivity|]. split; [exact Gd|]. intros tk wf. exists os. split; [reflexivity|].
    assert (P : prefix (os_buf os) (os_buf os)) by (exists []; now rewrite app_nil_r).
    split; [exact P|]. split; [exact P|]. split; [auto|]. split; [auto|]. intros n _ L. split; [now rewrite firstn_all2|tauto].
  - cbn [chain_on]. destruct (put_cases eig prop w i Rw) as [(t & Wt & _)|(f & (St & K) & _)].
    + destruct (endless_good os t 0 Gd) as (seq & ES & EO). set (os1 := set_buf os (os_buf os ++ seq) 0) in *.
      assert (G1 : os_good os1 = true) by exact Gd. assert (B1 : os_buf os1 = os_buf os ++ seq) by reflexivity.
      destruct (IH os1 G1) as (os0 & E0 & G0 & H). exists os0. split; [|split; [exact G0|]].
      { intro wf. rewrite Wt. cbn [bind]. rewrite EO. unfold endless at 1. rewrite Nat.leb_refl. apply E0. }
      intros tk wf. rewrite Wt. cbn [bind]. rewrite EO. destruct (List.length seq <=? tk (os_buf os) seq)%nat eqn:Q.
      * destruct (H tk wf) as (os' & E & P0 & P & A1 & A2 & A3). exists os'. split; [exact E|]. split.
        { destruct P0 as (c & P0). exists (seq ++ c). rewrite P0, B1. now rewrite app_assoc. }
        split; [exact P|]. split; [exact A1|]. split; [exact A2|].
        intros n -> L. apply A3; [reflexivity|]. apply Nat.leb_le in Q. unfold room in Q. rewrite B1, app_length. lia.
      * apply Nat.leb_gt in Q. set (bad := mkOs _ false _ _ _ _ _ _).
        destruct (chain_bad eig prop w tk wf is Rw bad eq_refl) as (os' & E & B2 & G2). exists os'. split; [exact E|].
        destruct (chain_grows eig prop w 0 is Rw os1 G1) as (o & Eo & (c & Pc) & _). rewrite E0 in Eo. injection Eo as <-. rewrite B1 in Pc.
        split; [rewrite B2; now exists (firstn (tk (os_buf os) seq) seq)|].
        split.
        { rewrite B2, Pc. exists (skipn (tk (os_buf os) seq) seq ++ c). cbn [bad os_buf].
          rewrite <- !app_assoc. f_equal. rewrite app_assoc, firstn_skipn. reflexivity. }
        split; [congruence|]. split; [intro F; specialize (F (os_buf os) seq); lia|].
        intros n -> L. unfold room in Q. split.
        { rewrite B2, Pc. cbn [bad os_buf]. unfold room. rewrite <- app_assoc. rewrite firstn_app, (firstn_all2 (os_buf os)) by exact L.
          f_equal. rewrite firstn_app. replace (n - List.length (os_buf os) - List.length seq)%nat with 0%nat by lia. cbn. now rewrite app_nil_r. }
        { rewrite G2, Pc, !app_length. split; [discriminate|]. intro. lia. }
    + destruct (K os) as [K1 K2]. destruct (IH (f os)) as (os0 & E0 & G0 & H); [congruence|].
      exists os0. split; [intro wf; rewrite St; cbn [bind]; apply E0|]. split; [exact G0|].
      intros tk wf. destruct (H tk wf) as (os' & E & HH). exists os'. rewrite St. cbn [bind]. rewrite K1 in HH. split; [exact E|exact HH].
Qed.

Lemma C89_chain_both_classes_proof : forall eig (w : world2 RN), reachable2 eig w -> forall prop os is wf, os_good os = true -> (os_width os <= 0)%Z ->
  (forall n, ~ In (IOne (IWidth n)) is) ->
  exists os' ts, chain_on endless wf prop w os is = Ret os' /\ List.Forall2 (piece2 prop w) is ts /\ os_buf os' = os_buf os ++ List.concat ts.
Proof.
  intros eig w Rw prop os is wf. revert os. induction is as [|i is IH]; intros os Gd W Nw.
  - exists os, []. cbn. rewrite app_nil_r. auto.
  - assert (Pi : plain_item i) by (destruct i as [[ ]|]; cbn; auto; exact (Nw _ (or_introl eq_refl))).
    assert (Nw' : forall n, ~ In (IOne (IWidth n)) is) by (intros n H; apply (Nw n); now right).
    cbn [chain_on]. destruct (put_cases eig prop w i Rw) as [(t & Wt & Pt)|(f & (St & K) & Kp)].
    + rewrite Wt. cbn [bind]. rewrite insert_endless, insert_plain by assumption.
      destruct (IH (set_buf os (os_buf os ++ t) 0) Gd ltac:(cbn; lia) Nw') as (os' & ts & E & F & B).
      exists os', (t :: ts). split; [exact E|]. split; [constructor; assumption|]. rewrite B. cbn. now rewrite app_assoc.
    + rewrite St. cbn [bind]. destruct (K os) as [K1 K2]. destruct (Kp Pi) as [Pt Kw].
      destruct (IH (f os) ltac:(congruence) ltac:(rewrite Kw; exact W) Nw') as (os' & ts & E & F & B).
      exists os', ([] :: ts). split; [exact E|]. split; [constructor; assumption|]. rewrite B, K1. reflexivity.
Qed.

Lemma C89_throwing_stream_proof : forall eig (w : world2 RN), reachable2 eig w -> forall takes wfail prop os is, os_good os = true ->
  exists os1 os2 thrown, chain_throwing takes wfail prop w os is = Ret (os1, thrown) /\ chain_on takes wfail prop w os is = Ret os2 /\
    os_buf os1 = os_buf os2 /\ thrown = negb (os_good os2) /\ os_good os1 = os_good os2 /\ (thrown = false -> os1 = os2).
Proof.
  intros eig w Rw tk wf prop os is. revert os. induction is as [|i is IH]; intros os Gd; cbn [chain_throwing chain_on].
  - exists os, os, false. rewrite Gd. auto 8.
  - assert (P : exists o, put_on tk wf prop w os i = Ret o).
    { destruct (put_cases eig prop w i Rw) as [(t & Wt & _)|(f & (St & _) & _)]; [rewrite Wt|rewrite St]; eauto. }
    destruct P as (o & ->). cbn [bind]. destruct (os_good o) eqn:Go; [exact (IH o Go)|].
    destruct (chain_bad eig prop w tk wf is Rw o Go) as (o2 & E & B & G2). exists o, o2, true. rewrite G2. repeat split; auto; congruence.
Qed.

(** On a buffer that takes everything this is the chain of Stream.v. *)
Lemma C89_endless_as_before_proof : forall (w : world2 RN) wf prop os is,
  chain_on endless wf prop w os (List.map IOne is) = chain (w2_w w) os is.
Proof.
  intros w wf prop os is. revert os. induction is as [|i is IH]; intro os; [reflexivity|]. cbn [List.map chain_on chain].
  assert (E : put_on endless wf prop w os (IOne i) = put (w2_w w) os i).
  { destruct os as [bf g wd c a p f s]. destruct i; try reflexivity; [|exact (f_equal Ret (insert_endless _ t wf))].
    cbn [put_on put]. unfold print_ureal_on, print_ureal. destruct (format _ _ _ _); cbn [bind]; try reflexivity. now rewrite insert_endless. }
  rewrite E. destruct (put (w2_w w) os i); cbn [bind]; auto.
Qed.

(** A UReal2 on a stream with place for three characters only. *)
Lemma full_case : exists w os', reachable2 no_eig w /\ os_good cout = true /\ (os_width cout <= 0)%Z /\
  (forall n, ~ In (IOne (IWidth n)) [IVar2 1%nat; IOne (IText (lit ", ")); IOne (IVar 0%nat)]) /\
  chain_on (room 3) 0 PropEst w cout [IVar2 1%nat; IOne (IText (lit ", ")); IOne (IVar 0%nat)] = Ret os' /\
  List.length (os_buf os') = 3%nat /\ os_good os' = false.
Proof.
  destruct negative_variance as (w & _ & Rw & V).
  set (is := [IVar2 1%nat; IOne (IText (lit ", ")); IOne (IVar 0%nat)]).
  assert (Nw : forall n, ~ In (IOne (IWidth n)) is) by (intros n H; cbn in H; intuition discriminate).
  destruct (C89_any_buffer_proof _ w Rw PropEst cout is eq_refl) as (os0 & E0 & G0 & H).
  destruct (H (room 3) 0%Z) as (os' & E & _ & _ & _ & _ & R3). destruct (R3 3%nat eq_refl ltac:(cbn; lia)) as [B Gd].
  destruct (C89_chain_both_classes_proof _ w Rw PropEst cout is 0%Z eq_refl ltac:(cbn; lia) Nw) as (o & ts & E1 & F & B1).
  rewrite E0 in E1. injection E1 as <-.
  assert (L : (3 < List.length (os_buf os0))%nat).
  { inversion F as [|i0 t0 l0 ts0 P0 F0]; subst. destruct P0 as (n & m2 & _ & Ev & _ & Neg). rewrite V in Ev. injection Ev as <-.
    destruct (Neg ltac:(lra)) as (M & _ & _ & ->). rewrite B1. cbn [List.concat]. rewrite !app_length. cbn. lia. }
  exists w, os'. split; [exact Rw|]. split; [reflexivity|]. split; [cbn; lia|]. split; [exact Nw|]. split; [exact E|]. split.
  - rewrite B, firstn_length. lia.
  - destruct (os_good os'); [|reflexivity]. destruct Gd as [Gd _]. specialize (Gd eq_refl). lia.
Qed.
