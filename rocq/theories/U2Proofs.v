(** * U2Proofs: ids, storage and propagation of UReal2 *)

From Coq Require Import List ZArith Bool Reals Lra Lia Sorted.
From Verif Require Import Base Num Map UReal World HessGrad Moments CheckMoments UReal2 World2 Sums SpecLin SpecObs
  URealFacts URealR URealProofs URealProofs2 HessProofs U2Facts U2World SpecU2 U2Values U2Ret SpecU2Run.
Import ListNotations.

Section Gen.
  Context {N : Num}.
  Variable zero_not_neg : nltb (n0 : N) n0 = false.
  Variable eig : list (list N) -> option (list N).

  Lemma legal2_run cs : legal2 cs -> exists env w, run2 eig w2_init cs = Ret w /\ wwf2 env w /\
    (w2_last w <= Z.of_nat (count_new2 cs))%Z /\ (0 <= w2_last w < maxid)%Z.
  Proof. intros (F & T & C). exact (gen_run2_init zero_not_neg eig cs F T C). Qed.

  Lemma reachable2_wf w : reachable2 eig w -> exists env, wwf2 env w /\ (0 <= w2_last w < maxid)%Z.
  Proof.
    intros (cs & L & E). destruct (legal2_run cs L) as (env & w' & E' & W & _ & B).
    assert (w' = w) by congruence. subst w'. eauto.
  Qed.

  Lemma run2_app cs1 cs2 w w1 : run2 eig w cs1 = Ret w1 -> run2 eig w (cs1 ++ cs2) = run2 eig w1 cs2.
  Proof.
    revert w; induction cs1 as [|c cs1 IH]; intros w E; cbn [app run2] in *; [now injection E as ->|].
    destruct (exec2 eig w c) as [w' [u|e| | ]]; try discriminate; auto.
  Qed.

  Lemma new_id_last env w c : wwf2 env w -> nary_ok2 c -> thr_number c -> (w2_last w + 1 < maxid)%Z ->
    is_new2 c = true -> snd (exec2 eig w c) = Ret tt ->
    new_id (fst (exec2 eig w c)) c = Ret (w2_last w + 1)%Z.
  Proof.
    intros W HN HT HB Hc HR. assert (P := proj1 (proj1 W)). change (w_last (w2_w w)) with (w2_last w) in P.
    destruct c as [c|v n m thr|v n s m thr| | | | | | | | | |]; try discriminate.
    - destruct c as [v n s| | | | | | | | | | | | | | | | | | |]; try discriminate.
      cbn [exec2 exec new_id] in *. fold (w2_last w) in *.
      unfold u_new in *. rewrite wrap_small in * by lia. cbn [usdev] in *.
      destruct (nltb s n0); [discriminate|]. cbn [assign_result fst snd w2_w w_set w_var upd w_last] in *.
      unfold upd. rewrite Nat.eqb_refl. unfold u_indepid. cbn [uid usigma length Nat.eqb].
      rewrite orb_true_r. cbn [assert_ bind]. replace (0 <=? w2_last w + 1)%Z with true by (symmetry; apply Z.leb_le; lia).
      reflexivity.
    - cbn [exec2 new_id] in *. destruct (new2_ok eig (w2_last w) n m thr) as [(e & E)|(n' & g & m' & E)]; [lia|exact HT| |];
        rewrite E in *; cbn [assign2 fst snd] in *; [discriminate|].
      cbn [w2_var upd2]. unfold upd2. rewrite Nat.eqb_refl. reflexivity.
    - cbn [exec2 new_id] in *. destruct (new2_std_ok eig (w2_last w) n s m thr) as [(e & E)|(n' & g & m' & E)]; [lia|exact HT| |];
        rewrite E in *; cbn [assign2 fst snd] in *; [discriminate|].
      cbn [w2_var upd2]. unfold upd2. rewrite Nat.eqb_refl. reflexivity.
  Qed.

  Lemma C01_ids_unique_both_classes_gen : forall cs1 c1 cs2 c2,
    legal2 (cs1 ++ c1 :: cs2 ++ [c2]) -> is_new2 c1 = true -> is_new2 c2 = true ->
    exists w1 w1' o1 w2 w2' o2,
      run2 eig w2_init cs1 = Ret w1 /\ exec2 eig w1 c1 = (w1', o1) /\
      run2 eig w1' cs2 = Ret w2 /\ exec2 eig w2 c2 = (w2', o2) /\
      (o1 = Ret tt -> o2 = Ret tt ->
       exists i1 i2, new_id w1' c1 = Ret i1 /\ new_id w2' c2 = Ret i2 /\ (0 < i1)%Z /\ (0 < i2)%Z /\ i1 <> i2).
  Proof.
    intros cs1 c1 cs2 c2 (F & T & C) H1 H2.
    change (c1 :: cs2 ++ [c2]) with ([c1] ++ cs2 ++ [c2]) in *.
    rewrite !count_new2_app in C.
    apply Forall_app in F as [F1 F]. apply Forall_app in F as [Fc1 F]. apply Forall_app in F as [F2 Fc2].
    apply Forall_app in T as [T1 T]. apply Forall_app in T as [Tc1 T]. apply Forall_app in T as [T2 Tc2].
    apply Forall_inv in Fc1, Tc1, Fc2, Tc2.
    assert (N1 : count_new2 [c1] = 1%nat) by (unfold count_new2; cbn [filter]; rewrite H1; reflexivity).
    assert (N2 : count_new2 [c2] = 1%nat) by (unfold count_new2; cbn [filter]; rewrite H2; reflexivity).
    rewrite N1, N2 in C. apply max_new_lt in C.
    destruct (gen_run2 zero_not_neg eig cs1 (fun _ => mkM n0 n0 n0 n0 n0 n0) w2_init (wwf2_init _) F1 T1) as (env1 & w1 & E1 & W1 & _ & L1);
      [cbn; lia|].
    assert (Hi : w2_last (w2_init (N := N)) = 0%Z) by reflexivity.
    destruct (gen_exec2 zero_not_neg eig env1 w1 c1 W1 Fc1 Tc1) as (env1' & W1' & _ & L1' & O1 & Nw1); [rewrite H1; lia|].
    assert (I1 := new_id_last env1 w1 c1 W1 Fc1 Tc1).
    destruct (exec2 eig w1 c1) as [w1' o1] eqn:X1. cbn [fst snd] in *. rewrite H1 in L1'.
    destruct (gen_run2 zero_not_neg eig cs2 env1' w1' W1' F2 T2) as (env2 & w2 & E2 & W2 & _ & L2); [lia|].
    assert (I2 := new_id_last env2 w2 c2 W2 Fc2 Tc2).
    destruct (exec2 eig w2 c2) as [w2' o2] eqn:X2. cbn [fst snd] in *.
    exists w1, w1', o1, w2, w2', o2. split; [exact E1|]. split; [exact X1|].
    split; [exact E2|]. split; [exact X2|].
    - intros R1 R2. exists (w2_last w1 + 1)%Z, (w2_last w2 + 1)%Z.
      split; [apply I1; auto; lia|]. split; [apply I2; auto; lia|].
      assert (w2_last w1' = w2_last w1 + 1)%Z by auto. lia.
  Qed.
End Gen.

Lemma C01_ids_unique_both_classes_proof : forall (N : Num) (eig : list (list N) -> option (list N)),
  nltb (n0 : N) n0 = false -> forall cs1 c1 cs2 c2,
  legal2 (cs1 ++ c1 :: cs2 ++ [c2]) -> is_new2 c1 = true -> is_new2 c2 = true ->
  exists w1 w1' o1 w2 w2' o2,
    run2 eig w2_init cs1 = Ret w1 /\ exec2 eig w1 c1 = (w1', o1) /\
    run2 eig w1' cs2 = Ret w2 /\ exec2 eig w2 c2 = (w2', o2) /\
    (o1 = Ret tt -> o2 = Ret tt ->
     exists i1 i2, new_id w1' c1 = Ret i1 /\ new_id w2' c2 = Ret i2 /\ (0 < i1)%Z /\ (0 < i2)%Z /\ i1 <> i2).
Proof. intros N eig Z0. exact (C01_ids_unique_both_classes_gen Z0 eig). Qed.

(** ** C25: storage *)

Lemma C25_storage_invariants_proof : forall (N : Num) (eig : list (list N) -> option (list N)),
  nltb (n0 : N) n0 = false -> forall cs, legal2 cs ->
  exists (w : world2 N) (moments : Z -> moms N), run2 eig w2_init cs = Ret w /\ forall v : nat,
    let h := u2hg (w2_var w v) in
    StronglySorted Z.lt (map fst (diagmap h)) /\
    NoDup (map fst (trimap h)) /\
    (forall i d, In (i, d) (diagmap h) -> (1 <= i <= w2_last w)%Z /\ dmom d = Some (moments i)) /\
    (forall i j, In (i, j) (map fst (trimap h)) ->
       (i < j)%Z /\ In i (map fst (diagmap h)) /\ In j (map fst (diagmap h))).
Proof.
  intros N eig Z0 cs L. destruct (legal2_run Z0 eig cs L) as (env & w & E & [_ W] & _).
  exists w, env. split; [exact E|]. intros v h. destruct (W v) as [(SD & ST & HK & _) HB].
  split; [|split; [|split]].
  - clear - SD. unfold msorted in SD. fold h in SD. induction SD as [|k l S IH L]; constructor; [exact IH|].
    rewrite Forall_forall in *. intros x Hx. apply klt_lt. now apply L.
  - clear - ST. unfold msorted in ST. fold h in ST. induction ST as [|k l S IH L]; constructor; [|exact IH].
    rewrite Forall_forall in L. intro H. apply L in H. apply klt_ZZ in H. lia.
  - exact HB.
  - exact HK.
Qed.

Lemma sorted_keys_nodup {N : Num} (h : hessgrad N) : hg_ok h -> NoDup (map fst (diagmap h)).
Proof.
  intros (SD & _). unfold msorted in SD. induction SD as [|k l S IH L]; constructor; [|exact IH].
  rewrite Forall_forall in L. intro H. apply L in H. apply klt_lt in H. lia.
Qed.

(** Loops over the storage. *)
Lemma C25_iterators_proof : forall (N : Num) (eig : list (list N) -> option (list N)),
  nltb (n0 : N) n0 = false -> forall w, reachable2 eig w -> forall v : nat,
  let h := u2hg (w2_var w v) in
  (exists vs, hess_visits h true = Ret vs /\ StronglySorted vle vs /\
     forall i j a, In (i, j, a) (map (fun t => (vid1 t, vid2 t, vval t)) vs) <->
       (i = j /\ exists d, In (i, d) (diagmap h) /\ dhh d = a) \/ In ((i, j), a) (trimap h)) /\
  (exists vs, hess_visits h false = Ret vs) /\
  (exists ts, tri_visits h true = Ret ts /\
     map (fun t => ((vid1 t, vid2 t), vval t)) ts = trimap h) /\
  (exists ts, tri_visits h false = Ret ts /\
     forall i j a, In (i, j, a) (map (fun t => (vid1 t, vid2 t, vval t)) ts) <->
       (i < j)%Z /\ In i (map fst (diagmap h)) /\ In j (map fst (diagmap h)) /\
       a = match mfind (i, j) (trimap h) with Some x => x | None => n0 end).
Proof.
  intros N eig Z0 w R v h. destruct (reachable2_wf Z0 eig w R) as (env & [_ W] & _).
  destruct (W v) as [OK _]. fold h in OK. assert (OK' := OK). destruct OK' as (SD & ST & HK & _).
  split; [|split; [|split]].
  - destruct (visits_facts h true OK) as (vs & E & S & V & FD & FT). exists vs. split; [exact E|]. split; [exact S|].
    intros i j a. rewrite in_map_iff. split.
    + intros (t & Et & Ht). injection Et as E1 E2 E3. destruct (Z.eq_dec i j) as [<-|D].
      * left. split; [reflexivity|]. assert (Hf : In t (filter (vis (i, i)) vs)).
        { apply filter_In. split; [exact Ht|]. change (keqb (vid t) (i, i) = true). apply keqb_eq. unfold vid. congruence. }
        rewrite FD in Hf. destruct (mfind i (diagmap h)) as [d|] eqn:Ef; [|destruct Hf].
        destruct Hf as [<-|[]]. exists d. split; [now apply mfind_In|exact E3].
      * right. assert (Hf : In t (filter (vis (i, j)) vs)).
        { apply filter_In. split; [exact Ht|]. change (keqb (vid t) (i, j) = true). apply keqb_eq. unfold vid. congruence. }
        rewrite FT in Hf by auto. destruct (mfind (i, j) (trimap h)) as [d|] eqn:Ef; [|destruct Hf].
        destruct Hf as [<-|[]]. cbn in E3. subst d. now apply mfind_In.
    + intros [[<- (d & Hd & <-)]|H].
      * exists (dvisit (i, d)). split; [reflexivity|].
        assert (Hf := FD i). rewrite (In_mfind _ _ _ SD Hd) in Hf.
        assert (Hi : In (dvisit (i, d)) (filter (vis (i, i)) vs)) by (rewrite Hf; now left).
        now apply filter_In in Hi.
      * destruct (HK i j (in_map fst _ _ H)) as (L & _). exists (tvisit (diagmap h) ((i, j), a)). split; [reflexivity|].
        assert (Hf := FT eq_refl i j). rewrite (In_mfind _ _ _ ST H) in Hf.
        assert (Hi : In (tvisit (diagmap h) ((i, j), a)) (filter (vis (i, j)) vs)) by (rewrite Hf; [now left|lia]).
        now apply filter_In in Hi.
  - exists (hess_list_all (trimap h) (diagmap h)). now apply hess_visits_all.
  - exists (map (tvisit (diagmap h)) (trimap h)). split; [now apply tri_visits_skip|].
    rewrite map_map. rewrite <- map_id. apply map_ext. intros [[i j] x]. reflexivity.
  - exists (tpairs (trimap h) (diagmap h)). split; [now apply tri_visits_all|].
    intros i j a. clear - SD.
    induction (diagmap h) as [|[k d] D IH]; cbn [tpairs map fst].
    + split; [intros []|intros (_ & [] & _)].
    + apply msorted_inv in SD as [SD L]. rewrite map_app, in_app_iff, (IH SD). clear IH.
      assert (L' : forall x, In x (map fst D) -> (k < x)%Z) by (intros x Hx; apply klt_lt; auto).
      rewrite map_map. cbn [fst].
      assert (H1 : In (i, j, a) (map (fun x => (k, fst x, match mfind (k, fst x) (trimap h) with Some x => x | None => n0 end)) D)
        <-> i = k /\ In j (map fst D) /\ a = match mfind (i, j) (trimap h) with Some x => x | None => n0 end).
      { rewrite !in_map_iff. split.
        - intros (x & [= <- <- <-] & Hx). split; [reflexivity|]. split; [eauto|reflexivity].
        - intros (-> & (x & <- & Hx) & ->). eauto. }
      match goal with |- In _ (map ?F D) \/ _ <-> _ =>
        replace (map F D) with (map (fun x : Z * diag N => (k, fst x, match mfind (k, fst x) (trimap h) with Some x => x | None => n0 end)) D) end.
      * rewrite H1. split.
        -- intros [(-> & Hj & ->)|(Lij & Hi & Hj & ->)]; [|split; [exact Lij|]; split; [now right|]; split; [now right|reflexivity]].
           split; [now apply L'|]. split; [now left|]. split; [now right|reflexivity].
        -- intros (Lij & [<-|Hi] & [<-|Hj] & ->); [lia|left; auto|exfalso; apply L' in Hi; lia|right; auto].
      * apply map_ext. intros [x y]. reflexivity.
Qed.

(** Queries. *)
Lemma C25_queries_return_proof : forall (N : Num) (eig : list (list N) -> option (list N)),
  nltb (n0 : N) n0 = false -> forall w, reachable2 eig w -> forall u v t : nat,
  let x := w2_var w u in let y := w2_var w v in let z := w2_var w t in
  (forall n, (1 <= n <= 4)%Z -> exists m, u2_m x n = Ret m) /\
  (exists c, u2_cov x y = Ret c) /\
  (exists i, u2_indepid x = Ret i) /\
  (forall p, exists b, u2_all p x = Ret b) /\
  ((exists g, u2_grad z x = Ret g) \/ u2_grad z x = Throw InvalidArgument) /\
  ((exists g, u2_hess z x y = Ret g) \/ u2_hess z x y = Throw InvalidArgument) /\
  (forall f f1 f2, exists r, u2_unary x f f1 f2 = Ret r) /\
  (forall f fx fy fxx fyy fxy, exists r, u2_binary x y f fx fy fxx fyy fxy = Ret r).
Proof.
  intros N eig Z0 w R u v t x y z. destruct (reachable2_wf Z0 eig w R) as (env & [_ W] & B).
  destruct (W u) as [OKx _]. destruct (W v) as [OKy _]. fold x in OKx. fold y in OKy.
  split; [intros n Hn; now apply u2_m_ret|]. split; [now apply u2_cov_ret|].
  split; [apply u2_indepid_ret|]. split; [intro p; now apply u2_all_ret|].
  split; [apply u2_grad_safe|]. split; [apply u2_hess_safe|].
  split.
  - intros f f1 f2. destruct (unary_wf2 _ _ x f f1 f2 (W u)) as (r & E & _). eauto.
  - intros. destruct (binary_wf2 _ _ x y f fx fy fxx fyy fxy (W u) (W v)) as (r & E & _); [lia|]. eauto.
Qed.

(** ** C26, C27: propagation *)

Local Open Scope R_scope.

Lemma Rltb_00 : nltb (n0 : RN) n0 = false.
Proof. apply Rltb_false. lra. Qed.

Lemma reach_ok eig (w : world2 RN) : reachable2 eig w ->
  forall v, hg_ok (u2hg (w2_var w v)) /\ kbelow (u2hg (w2_var w v)).
Proof.
  intros R v. destruct (reachable2_wf Rltb_00 eig w R) as (env & [_ W] & B).
  split; [apply (proj1 (W v))|]. eapply wf2_below; [apply W|lia].
Qed.

Lemma jet_eq_trans a b c : jet_eq a b -> jet_eq b c -> jet_eq a c.
Proof.
  intros (M1 & D1 & G1 & H1) (M2 & D2 & G2 & H2). split; [congruence|]. split; [intro i; rewrite D1; apply D2|].
  split; intros; [rewrite G1; apply G2|rewrite H1; apply H2].
Qed.

Lemma C26_neg_add_sub_mul_proof : forall eig (w : world2 RN), reachable2 eig w -> forall u v : nat,
  let x := w2_var w u in let y := w2_var w v in
  (exists z, u2_neg x = Ret z /\ jet_eq (jet_of z) (jet_neg (jet_of x))) /\
  (exists z, u2_add x y = Ret z /\ jet_eq (jet_of z) (jet_add (jet_of x) (jet_of y))) /\
  (exists z, u2_sub x y = Ret z /\ jet_eq (jet_of z) (jet_sub (jet_of x) (jet_of y))) /\
  (exists z, u2_mul x y = Ret z /\ jet_eq (jet_of z) (jet_mul (jet_of x) (jet_of y))).
Proof.
  intros eig w R u v x y. destruct (reach_ok eig w R u) as [Ox Kx]. destruct (reach_ok eig w R v) as [Oy Ky].
  fold x in Ox, Kx. fold y in Oy, Ky. split; [|split; [|split]].
  - destruct (jet_unary_ok x (- u2mu x) (-1) 0 Ox) as (z & E & _ & _ & J & _). exists z. split; [exact E|].
    eapply jet_eq_trans; [apply J; now left|]. split; [reflexivity|]. split; [reflexivity|].
    split; intros; cbn [jet_unary jet_neg j_g j_h]; lra.
  - destruct (jet_binary_ok x y (u2mu x + u2mu y) 1 1 0 0 0 Ox Oy Kx Ky) as (z & E & _ & _ & J).
    exists z. split; [exact E|].
    eapply jet_eq_trans; [apply J; now left|]. split; [reflexivity|]. split; [reflexivity|].
    split; intros; cbn [jet_binary jet_add j_g j_h]; lra.
  - destruct (jet_binary_ok x y (u2mu x - u2mu y) 1 (-1) 0 0 0 Ox Oy Kx Ky) as (z & E & _ & _ & J).
    exists z. split; [exact E|].
    eapply jet_eq_trans; [apply J; now left|]. split; [reflexivity|]. split; [reflexivity|].
    split; intros; cbn [jet_binary jet_sub j_g j_h]; lra.
  - destruct (jet_binary_ok x y (u2mu x * u2mu y) (u2mu y) (u2mu x) 0 0 1 Ox Oy Kx Ky) as (z & E & _ & _ & J).
    exists z. split; [exact E|].
    eapply jet_eq_trans; [apply J; now left|]. split; [reflexivity|]. split; [reflexivity|].
    split; intros; cbn [jet_binary jet_mul j_g j_h j_mean jet_of]; lra.
Qed.

Lemma C26_no_pure_second_derivative_proof : forall eig (w : world2 RN), reachable2 eig w -> forall u v : nat,
  let x := w2_var w u in let y := w2_var w v in
  (forall f f1, exists z, u2_unary x f f1 0 = Ret z /\ jet_eq (jet_of z) (jet_unary (jet_of x) f f1 0)) /\
  (forall f fx fy fxy, exists z, u2_binary x y f fx fy 0 0 fxy = Ret z /\
     jet_eq (jet_of z) (jet_binary (jet_of x) (jet_of y) f fx fy 0 0 fxy)).
Proof.
  intros eig w R u v x y. destruct (reach_ok eig w R u) as [Ox Kx]. destruct (reach_ok eig w R v) as [Oy Ky].
  fold x in Ox, Kx. fold y in Oy, Ky. split.
  - intros f f1. destruct (jet_unary_ok x f f1 0 Ox) as (z & E & _ & _ & J & _). exists z. split; [exact E|].
    apply J; now left.
  - intros f fx fy fxy. destruct (jet_binary_ok x y f fx fy 0 0 fxy Ox Oy Kx Ky) as (z & E & _ & _ & J).
    exists z. split; [exact E|]. apply J; now left.
Qed.

Lemma single_covered f2 x : hg_ok (u2hg x) -> f2 = 0 \/ single (jet_of x) -> covered f2 x.
Proof.
  intros OK [H|H]; [now left|]. right; left. assert (ND := sorted_keys_nodup _ OK).
  destruct (diagmap (u2hg x)) as [|[a da] [|[b db] l]] eqn:E; cbn [length]; try lia. exfalso.
  assert (a = b) by (apply H; cbn [jet_of j_dep]; rewrite E; cbn; auto). subst b.
  cbn in ND. inversion ND as [|? ? Hn _]; subst. apply Hn. now left.
Qed.

Lemma C27_second_order_chain_rule_partial_proof : forall eig (w : world2 RN), reachable2 eig w -> forall u v : nat,
  let x := w2_var w u in let y := w2_var w v in
  (forall f f1 f2, exists z, u2_unary x f f1 f2 = Ret z /\
     jet_eq_diag (jet_of z) (jet_unary (jet_of x) f f1 f2) /\
     (f2 = 0 \/ single (jet_of x) -> jet_eq (jet_of z) (jet_unary (jet_of x) f f1 f2))) /\
  (forall f fx fy fxx fyy fxy, exists z, u2_binary x y f fx fy fxx fyy fxy = Ret z /\
     jet_eq_diag (jet_of z) (jet_binary (jet_of x) (jet_of y) f fx fy fxx fyy fxy) /\
     (fxx = 0 \/ single (jet_of x) -> fyy = 0 \/ single (jet_of y) ->
      jet_eq (jet_of z) (jet_binary (jet_of x) (jet_of y) f fx fy fxx fyy fxy))).
Proof.
  intros eig w R u v x y. destruct (reach_ok eig w R u) as [Ox Kx]. destruct (reach_ok eig w R v) as [Oy Ky].
  fold x in Ox, Kx. fold y in Oy, Ky. split.
  - intros f f1 f2. destruct (jet_unary_ok x f f1 f2 Ox) as (z & E & _ & D & J & _). exists z. split; [exact E|].
    split; [exact D|]. intro C. apply J. now apply single_covered.
  - intros. destruct (jet_binary_ok x y f fx fy fxx fyy fxy Ox Oy Kx Ky) as (z & E & _ & D & J).
    exists z. split; [exact E|]. split; [exact D|]. intros Cx Cy. apply J; now apply single_covered.
Qed.
