(** * MoveProofs: proofs about std::move and std::swap (C74) *)

From Coq Require Import List ZArith Bool Reals Lra Lia.
From Verif Require Import Base Num Map UReal World HessGrad Moments CheckMoments UReal2 World2 Move SpecOrder SpecMove.
From Verif Require Import SpecObs SpecU2 SpecU2Run Sums URealFacts URealProofs URealProofs2 HessProofs U2Facts U2World U2Ret U2Proofs U2Proofs2.
Import ListNotations.

Section Local.
  Context {N : Num}.
  Variable eig : list (list N) -> option (list N).

  Lemma exec_shape (w w' : world N) c : w_last w = w_last w' ->
    (forall u, In u (reads c) -> w_var w u = w_var w' u) ->
    exists l o, exec w c = assign_result (mkW l (w_var w)) (writes c) o /\
                exec w' c = assign_result (mkW l (w_var w')) (writes c) o.
  Proof.
    intros HL HR. destruct w as [l g], w' as [l' g']. cbn [w_last w_var] in *. subst l'.
    assert (R : forall v a, (mkW l (upd g v a), Ret tt) = assign_result (mkW l g) v (Ret a) /\
                            (mkW l (upd g' v a), Ret tt) = assign_result (mkW l g') v (Ret a)) by (intros; split; reflexivity).
    destruct c; cbn [exec writes reads w_last w_var] in *; unfold w_set; cbn [w_last w_var];
      rewrite <- ?(HR x) by (cbn; auto); rewrite <- ?(HR y) by (cbn; auto); rewrite <- ?(HR v) by (cbn; auto);
      try (eexists _, _; exact (R _ _)); try (eexists _, _; split; reflexivity).
    - assert (E1 : map g xs = map g' xs) by (apply map_ext_in; exact HR).
      assert (E2 : map (fun x => u_n (g x)) xs = map (fun x => u_n (g' x)) xs) by (apply map_ext_in; intros u Hu; now rewrite HR).
      rewrite <- E1, <- E2. eexists _, _. split; reflexivity.
  Qed.

  Definition only_u2 (c : call2 N) : Prop := match c with E1 _ => False | _ => True end.
  Definition with_last (w : world2 N) (l : Z) : world2 N := mkW2 (mkW l (w_var (w2_w w))) (w2_var w).

  Lemma exec2_shape (w w' : world2 N) c : only_u2 c -> w2_last w = w2_last w' ->
    (forall u, In u (reads2 c) -> w2_var w u = w2_var w' u) ->
    exists l o, exec2 eig w c = assign2 (with_last w l) (writes2 c) o /\
                exec2 eig w' c = assign2 (with_last w' l) (writes2 c) o.
  Proof.
    intros HO HL HR. destruct w as [[l1 g1] g], w' as [[l1' g1'] g']. unfold w2_last in *. cbn [w_last w2_w w2_var] in *. subst l1'.
    destruct c; try destruct HO; cbn [exec2 writes2 reads2 w2_var] in *;
      rewrite <- ?(HR x) by (cbn; auto); rewrite <- ?(HR y) by (cbn; auto);
      try (exists l1; eexists; split; reflexivity).
    - unfold w2_last. cbn [w_last w2_w]. destruct (u2_new eig l1 n m thr) as [l2 o]. exists l2, o. split; reflexivity.
    - unfold w2_last. cbn [w_last w2_w]. destruct (u2_new_std eig l1 n s m thr) as [l2 o]. exists l2, o. split; reflexivity.
  Qed.

  Definition rel (g : gone) (m w : world2 N) : Prop := same_but g (Ret m) (Ret w).

  Lemma looks1 g (c : call N) : looks_ok g (VCall (E1 c)) = (forall u, In u (reads c) -> ~ gone1 g u). Proof. reflexivity. Qed.
  Lemma looks2 g (c : call2 N) : only_u2 c -> looks_ok g (VCall c) = (forall u, In u (reads2 c) -> ~ gone2 g u).
  Proof. destruct c; intro H; try destruct H; reflexivity. Qed.
  Lemma gone2_ret w g c : only_u2 c -> snd (exec2 eig w c) = Ret tt ->
    gone_after eig w g (VCall c) = mkG (gone1 g) (fun u => u <> writes2 c /\ gone2 g u).
  Proof. intros O E. unfold gone_after. rewrite E. destruct c; try destruct O; reflexivity. Qed.

  Lemma step (g : gone) m w e : rel g m w -> looks_ok g e ->
    snd (mexec eig m e) = snd (exec2 eig w (copied e)) /\
    rel (gone_after eig w g e) (fst (mexec eig m e)) (fst (exec2 eig w (copied e))).
  Proof.
    intros (HL & H1 & H2) LK. destruct e as [c|v x rest|v x rd rt].
    - destruct c as [c| | | | | | | | | | | |].
      { rewrite looks1 in LK. cbn [mexec copied exec2].
        destruct (exec_shape (w2_w m) (w2_w w) c HL) as (l & o & Em & Ew); [intros u Hu; apply H1, LK, Hu|].
        assert (G : gone_after eig w g (VCall (E1 c)) = match o with Ret _ => mkG (fun u => u <> writes c /\ gone1 g u) (gone2 g) | _ => g end).
        { unfold gone_after. cbn [exec2]. rewrite Ew. destruct o; reflexivity. }
        rewrite G, Em, Ew. destruct o as [a| | |]; cbn [assign_result fst snd]; (split; [reflexivity|]);
          (split; [reflexivity|]); (split; [|exact H2]); intros u Hu; cbn; try (now apply H1).
        unfold upd. destruct (Nat.eqb_spec u (writes c)) as [->|Nu]; [reflexivity|]. apply H1. intro Hg. apply Hu. cbn. auto. }
      all: match goal with |- context [VCall ?c] =>
        assert (O : only_u2 c) by exact I; rewrite looks2 in LK by exact O; cbn [mexec copied];
        destruct (exec2_shape m w c O HL) as (l & o & Em & Ew); [intros u Hu; apply H2, LK, Hu|];
        assert (G : gone_after eig w g (VCall c) = match o with Ret _ => mkG (gone1 g) (fun u => u <> writes2 c /\ gone2 g u) | _ => g end);
        [destruct o; [apply gone2_ret; [exact O|rewrite Ew; reflexivity]| | |]; unfold gone_after; rewrite Ew; reflexivity|];
        rewrite G, Em, Ew; destruct o as [a| | |]; cbn [assign2 fst snd]; (split; [reflexivity|]);
        (split; [reflexivity|]); (split; [exact H1|]); intros u Hu; cbn; try (now apply H2);
        unfold upd2; cbn [writes2] in *; match goal with |- context [Nat.eqb u ?k] => destruct (Nat.eqb_spec u k) as [->|Nu] end;
          [reflexivity|apply H2; intro Hg; apply Hu; cbn; auto] end.
    - assert (Ex : w_var (w2_w m) x = w_var (w2_w w) x).
      { apply H1. apply LK. cbn; auto. }
      cbn. split; [reflexivity|]. split; [exact HL|]. split; [|exact H2]. intros u Hu. cbn in *. unfold upd.
      destruct (Nat.eqb_spec u x) as [->|Nx]; [exfalso; apply Hu; now left|].
      destruct (Nat.eqb_spec u v) as [->|Nv]; [rewrite Ex; reflexivity|]. apply H1. intro Hg. apply Hu. auto.
    - assert (Ex : w2_var m x = w2_var w x).
      { apply H2. apply LK. cbn; auto. }
      cbn. split; [reflexivity|]. split; [exact HL|]. split; [exact H1|]. intros u Hu. cbn in *. unfold upd2.
      destruct (Nat.eqb_spec u x) as [->|Nx]; [exfalso; apply Hu; now left|].
      destruct (Nat.eqb_spec u v) as [->|Nv]; [rewrite Ex; reflexivity|]. apply H2. intro Hg. apply Hu. auto.
  Qed.

  Lemma mrun_clean es : forall g m w, rel g m w -> clean eig w g es ->
    same_but (gone_end eig w g es) (mrun eig m es) (run2 eig w (map copied es)).
  Proof.
    induction es as [|e es IH]; intros g m w R C; [exact R|]. destruct C as [LK C].
    destruct (step g m w e R LK) as [S R']. cbn [mrun map run2 gone_end].
    destruct (mexec eig m e) as [m1 o1] eqn:Em, (exec2 eig w (copied e)) as [w1 o2] eqn:Ew. cbn [fst snd] in *. subst o2.
    destruct o1; try exact I; now apply IH.
  Qed.
End Local.

Lemma C74_moves_are_copies_proof : forall (N : Num) (eig : list (list N) -> option (list N)) (es : list (event N)),
  clean eig w2_init nothing_gone es ->
  same_but (gone_end eig w2_init nothing_gone es) (mrun eig w2_init es) (run2 eig w2_init (map copied es)).
Proof.
  intros N eig es C. apply mrun_clean; [|exact C]. split; [reflexivity|]. split; reflexivity.
Qed.

Lemma C74_swap_proof : forall (N : Num) (eig : list (list N) -> option (list N)) (w : world2 N) (v x t : nat),
  t <> v -> t <> x ->
  (forall r1 r2 r3, exists w', mrun eig w (swap1 v x t r1 r2 r3) = Ret w' /\
     w_var (w2_w w') v = w_var (w2_w w) x /\ w_var (w2_w w') x = w_var (w2_w w) v /\
     (forall u, u <> v -> u <> x -> u <> t -> w_var (w2_w w') u = w_var (w2_w w) u) /\
     w2_last w' = w2_last w /\ w2_var w' = w2_var w) /\
  (forall r1 r2 r3, exists w', mrun eig w (swap2 v x t r1 r2 r3) = Ret w' /\
     w2_var w' v = w2_var w x /\ w2_var w' x = w2_var w v /\
     (forall u, u <> v -> u <> x -> u <> t -> w2_var w' u = w2_var w u) /\ w2_w w' = w2_w w).
Proof.
  intros N eig w v x t Tv Tx. split; intros r1 r2 r3; eexists; (split; [reflexivity|]); cbn; unfold upd, upd2, u_moved_from, u2_moved_from.
  all: rewrite ?(proj2 (Nat.eqb_neq v t) (not_eq_sym Tv)), ?(proj2 (Nat.eqb_neq x t) (not_eq_sym Tx)), ?(proj2 (Nat.eqb_neq t v) Tv), ?(proj2 (Nat.eqb_neq t x) Tx), ?Nat.eqb_refl.
  all: destruct (Nat.eqb_spec v x) as [->|Nvx]; rewrite ?Nat.eqb_refl, ?(proj2 (Nat.eqb_neq x v) ltac:(congruence)).
  all: repeat split; auto.
  all: intros u A B C; rewrite (proj2 (Nat.eqb_neq u v) A) || idtac; rewrite (proj2 (Nat.eqb_neq u x) B), (proj2 (Nat.eqb_neq u t) C); reflexivity.
Qed.

(** ** Moved-from variables, when nothing is left in their containers *)

Section Left.
  Context {N : Num}.
  Hypothesis Hz : nltb (n0 : N) n0 = false.
  Variable eig : list (list N) -> option (list N).

  Lemma moved_wf last (x : ureal N) : wf last x -> wf last (u_moved_from x []).
  Proof.
    intro W. split; cbn; auto using (wf_zero _ _ W), (wf_neg _ _ W).
    - constructor.
    - intros k Hk. unfold ukeys, u_moved_from in Hk. cbn in Hk. destruct (Z.ltb_spec 0 (uid x)) as [P|P].
      + apply (wf_bound _ _ W). rewrite ukeys_pos by exact P. exact Hk.
      + destruct (uid x <? 0)%Z; destruct Hk.
  Qed.

  Lemma mexec_wwf2 env w e : wwf2 env w -> nary_ok2 (copied e) -> thr_ok (copied e) -> empties e ->
    (w2_last w + (if is_new2 (copied e) then 1 else 0) < maxid)%Z ->
    exists env', wwf2 env' (fst (mexec eig w e)) /\
      (w2_last w <= w2_last (fst (mexec eig w e)) <= w2_last w + (if is_new2 (copied e) then 1 else 0))%Z /\
      (snd (mexec eig w e) = Ret tt \/ exists e', snd (mexec eig w e) = Throw e').
  Proof.
    intros W HN HT HE HB. destruct e as [c|v x r|v x r s].
    - destruct (gen_exec2 Hz eig env w c W HN HT HB) as (env' & A & _ & B & C & _). eauto.
    - cbn in HE. subst r. exists env. destruct W as [[P W1] W2]. split; [|split; [change (w2_last (fst _)) with (w2_last w); cbn [copied is_new2 is_new]; lia|now left]].
      split; [|exact W2]. split; [exact P|]. intro u. cbn. unfold upd.
      destruct (Nat.eqb u x); [apply moved_wf, W1|]. destruct (Nat.eqb u v); apply W1.
    - destruct HE as [-> ->]. exists env. destruct W as [W1 W2]. split; [|split; [change (w2_last (fst _)) with (w2_last w); cbn [copied is_new2 is_new]; lia|now left]].
      split; [exact W1|]. intro u. cbn. unfold upd2.
      destruct (Nat.eqb u x); [apply wf2_empty|]. destruct (Nat.eqb u v); apply W2.
  Qed.

  Lemma mrun_wwf2 es : forall env w, wwf2 env w -> List.Forall nary_ok2 (map copied es) -> List.Forall thr_ok (map copied es) ->
    List.Forall empties es -> (w2_last w + Z.of_nat (count_new2 (map copied es)) < maxid)%Z ->
    exists env' w', mrun eig w es = Ret w' /\ wwf2 env' w' /\ (0 <= w2_last w' < maxid)%Z.
  Proof.
    induction es as [|e es IH]; intros env w W F F2 F3 B.
    - exists env, w. split; [reflexivity|]. split; [exact W|]. change (count_new2 (map copied (@nil (event N)))) with 0%nat in B. destruct W as [[P _] _]. unfold w2_last in *. lia.
    - inversion F as [|? ? Fc Fcs]; subst. inversion F2 as [|? ? Tc Tcs]; subst. inversion F3 as [|? ? Ec Ecs]; subst.
      cbn [map] in B. rewrite count_new2_cons in B.
      destruct (mexec_wwf2 env w e W Fc Tc Ec) as (env1 & W1 & L1 & O); [destruct (is_new2 (copied e)); lia|].
      destruct (IH env1 (fst (mexec eig w e)) W1 Fcs Tcs Ecs) as (env' & w' & Er & W' & L'); [lia|].
      exists env', w'. cbn [mrun]. destruct (mexec eig w e) as [w1 o]. cbn [fst snd] in *.
      split; [destruct O as [-> | [e' ->]]; exact Er|]. split; [exact W'|exact L'].
  Qed.
End Left.

Lemma C74_no_undefined_behaviour_proof : forall (N : Num) (eig : list (list N) -> option (list N)),
  nltb (n0 : N) n0 = false -> forall es : list (event N), legal2 (map copied es) -> List.Forall empties es ->
  exists w, mrun eig w2_init es = Ret w /\
    (forall u v, let x := w_var (w2_w w) u in let y := w_var (w2_w w) v in
       (exists b, u_isindep x = Ret b) /\ (exists i, u_indepid x = Ret i) /\
       ((exists r, u_grad y x = Ret r) \/ u_grad y x = Throw InvalidArgument) /\
       (forall mu dx dy, exists z, u_binary x y mu dx dy = Ret z)) /\
    (forall u v t, let x := w2_var w u in let y := w2_var w v in let z := w2_var w t in
       (forall n, (1 <= n <= 4)%Z -> exists m, u2_m x n = Ret m) /\
       (exists c, u2_cov x y = Ret c) /\ (exists i, u2_indepid x = Ret i) /\
       (forall p, exists b, u2_all p x = Ret b) /\
       ((exists g, u2_grad z x = Ret g) \/ u2_grad z x = Throw InvalidArgument) /\
       ((exists g, u2_hess z x y = Ret g) \/ u2_hess z x y = Throw InvalidArgument) /\
       (forall f f1 f2, exists r, u2_unary x f f1 f2 = Ret r) /\
       (forall f fx fy fxx fyy fxy, exists r, u2_binary x y f fx fy fxx fyy fxy = Ret r)).
Proof.
  intros N eig Z0 es (F & T & C) HE. apply max_new_lt in C.
  destruct (mrun_wwf2 Z0 eig es (fun _ => mkM n0 n0 n0 n0 n0 n0) w2_init (wwf2_init _) F T HE) as (env & w & E & [[P W1] W] & B).
  { cbn. lia. }
  exists w. split; [exact E|]. split.
  - intros u v x y. split; [eapply URealProofs2.isindep_ok; apply W1|]. split; [eapply URealProofs2.indepid_ok; apply W1|].
    split; [apply grad_ok|]. intros mu dx dy.
    destruct (binary_wf (w_last (w2_w w)) x y mu dx dy) as (z & Ez & _); eauto; try apply W1; unfold w2_last in B; try lia.
  - intros u v t x y z. destruct (W u) as [OKx _]. destruct (W v) as [OKy _]. fold x in OKx. fold y in OKy.
    split; [intros n Hn; now apply u2_m_ret|]. split; [now apply u2_cov_ret|].
    split; [apply u2_indepid_ret|]. split; [intro p; now apply u2_all_ret|].
    split; [apply u2_grad_safe|]. split; [apply u2_hess_safe|].
    split.
    + intros f f1 f2. destruct (unary_wf2 _ _ x f f1 f2 (W u)) as (r & Er & _). eauto.
    + intros. destruct (binary_wf2 _ _ x y f fx fy fxx fyy fxy (W u) (W v)) as (r & Er & _); [lia|]. eauto.
Qed.

(** What a moved-from variable is, when nothing is left in its containers. *)
Lemma C74_moved_from_proof : forall eig (es : list (event RN)), legal2 (map copied es) -> List.Forall empties es ->
  forall w, mrun eig w2_init es = Ret w -> forall v x, exists w1 w2,
  mexec eig w (VMove1 v x []) = (w1, Ret tt) /\ mexec eig w (VMove2 v x [] []) = (w2, Ret tt) /\
  (let a := w_var (w2_w w) x in let a' := w_var (w2_w w1) x in
   u_n a' = u_n a /\
   (a' = a \/
    u_isindep a' = Ret true /\ u_indepid a' = Ret 0%Z /\
    (forall b, u_cov a' b = 0%R /\ u_cov b a' = 0%R) /\ (u_s a' = 0%R \/ u_s a' = u_s a))) /\
  w2_var w2 x = u2_const (u2mu (w2_var w x)).
Proof.
  intros eig es (F & T & C) HE w Er v x. apply max_new_lt in C.
  destruct (mrun_wwf2 Rltb_00 eig es (fun _ => mkM 0%R 0%R 0%R 0%R 0%R 0%R) w2_init (wwf2_init _) F T HE) as (env & w' & E' & [[P W1] W] & B).
  { cbn. lia. }
  rewrite E' in Er. injection Er as <-. eexists _, _. split; [reflexivity|]. split; [reflexivity|]. split.
  - cbn. unfold upd. rewrite Nat.eqb_refl. split; [reflexivity|]. assert (Wx := W1 x). destruct (w_var (w2_w w') x) as [i s m sg].
    unfold u_moved_from. cbn [uid usdev umu usigma].
    destruct (Z.ltb_spec i 0) as [Hi|Hi].
    + right. split; [|split; [|split]].
      * unfold u_isindep. cbn [uid usigma]. rewrite (proj2 (Z.ltb_lt i 0) Hi). reflexivity.
      * unfold u_indepid. cbn [uid usigma]. rewrite (proj2 (Z.ltb_lt i 0) Hi). cbn [orb assert_ bind].
        rewrite (proj2 (Z.leb_gt 0 i) Hi). reflexivity.
      * intro b. unfold u_cov. cbn [uid usigma]. rewrite (proj2 (Z.ltb_ge 0 i) ltac:(lia)), (proj2 (Z.ltb_lt i 0) Hi).
        cbn [andb]. rewrite !andb_false_r. cbn. destruct (0 <? uid b)%Z, (uid b <? 0)%Z; cbn; split; try reflexivity;
          destruct (usigma b) as [|[? ?] ?]; reflexivity.
      * unfold u_s, u_s2. cbn [uid usdev usigma fold_left]. rewrite (proj2 (Z.leb_gt 0 i) Hi).
        destruct (nleb n0 s); [now right|left; apply sqrt_0].
    + left. assert (Q := wf_nonneg _ _ Wx Hi). cbn in Q. now subst sg.
  - cbn. unfold upd2. rewrite Nat.eqb_refl. reflexivity.
Qed.

(** A moved-from variable can contradict itself: y = std::move(x) after x = a + b and x.s(). *)
Lemma C74_moved_from_consistent_refuted_proof : exists (es : list (event RN)) w x,
  legal2 (map copied es) /\ List.Forall empties es /\ mrun (fun _ => None) w2_init es = Ret w /\
  (u_s (w_var (w2_w w) x) * u_s (w_var (w2_w w) x) = 2)%R /\ u_cov (w_var (w2_w w) x) (w_var (w2_w w) x) = 0%R.
Proof.
  set (es := [VCall (E1 (CNew 0 0%R 1%R)); VCall (E1 (CNew 1 0%R 1%R)); VCall (E1 (CAdd 2 0 1)); VCall (E1 (CS 2)); VMove1 3 2 []] : list (event RN)).
  exists es.
  assert (L : legal2 (map copied es)).
  { split; [repeat constructor|]. split; [repeat constructor|]. apply max_new_Z. cbn. lia. }
  assert (HE : List.Forall empties es) by (repeat constructor).
  destruct (C74_no_undefined_behaviour_proof RN (fun _ => None) Rltb_00 es L HE) as (w & E & _).
  exists w, 2%nat. split; [exact L|]. split; [exact HE|]. split; [exact E|].
  assert (X : w_var (w2_w w) 2%nat = mkU (N := RN) invalid_id (sqrt (0 + 1 * 1 * (1 * 1) + (0 + 1 * 1) * (0 + 1 * 1))) (0 + 0)%R []).
  { revert E. unfold es. cbn -[Rplus Rmult Rminus Rdiv sqrt IZR].
    rewrite (proj2 (Rltb_false 1 0) ltac:(lra)). cbn -[Rplus Rmult Rminus Rdiv sqrt IZR].
    rewrite (proj2 (Rltb_true (- (1)) 0) ltac:(lra)). intro E. injection E as <-. reflexivity. }
  rewrite X. split; [|reflexivity]. unfold u_s. cbn [uid usdev].
  assert (P := sqrt_pos (0 + 1 * 1 * (1 * 1) + (0 + 1 * 1) * (0 + 1 * 1))).
  change (0 <=? invalid_id)%Z with false. cbv iota. replace (nleb (n := RN) n0 _) with true.
  - rewrite sqrt_sqrt; lra.
  - symmetry. apply Rleb_true. exact P.
Qed.
