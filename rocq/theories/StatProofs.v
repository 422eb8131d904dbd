(** * StatProofs: covariance and correlation matrices (C17, C18) *)

From Coq Require Import List ZArith Bool Reals Lra Lia.
From Verif Require Import Base Num Map UReal World Sums SpecLin SpecObs URealFacts URealR URealProofs Stat.
Import ListNotations.
Local Open Scope R_scope.

Lemma buf_set_app {A : Type} (l1 : list A) : forall b l2 a,
  buf_set (length l1) a (l1 ++ b :: l2) = Ret (l1 ++ a :: l2).
Proof. induction l1 as [|c l1 IH]; intros b l2 a; cbn; [reflexivity|]. now rewrite IH. Qed.

Lemma buf_set_Ret {A : Type} k (a : A) : forall l, (k < length l)%nat ->
  exists l', buf_set k a l = Ret l' /\ length l' = length l /\
    forall j, nth_error l' j = if Nat.eqb j k then Some a else nth_error l j.
Proof.
  induction k as [|k IH]; intros [|b l] H; cbn in H; try lia.
  - eexists; split; [reflexivity|]. split; [reflexivity|]. intros [|j]; reflexivity.
  - destruct (IH l) as (l' & E & L & F); [lia|]. cbn. rewrite E. cbn.
    eexists; split; [reflexivity|]. split; [cbn; congruence|]. intros [|j]; cbn; auto.
Qed.

Section OuterFacts.
  Context {A B : Type} (op : A -> A -> B).

  Lemma outer_row_ok x ys : forall done rest, (length ys <= length rest)%nat ->
    outer_row op x ys (done ++ rest, length done)
    = Ret (done ++ map (op x) ys ++ skipn (length ys) rest, (length done + length ys)%nat).
  Proof.
    induction ys as [|y ys IH]; intros done rest H; cbn [outer_row map length app skipn].
    - now rewrite Nat.add_0_r.
    - destruct rest as [|r rest]; [cbn in H; lia|]. cbn [fst snd]. rewrite buf_set_app. cbn [bind].
      replace (S (length done)) with (length (done ++ [op x y])) by (rewrite app_length; cbn; lia).
      replace (done ++ op x y :: rest) with ((done ++ [op x y]) ++ rest) by (rewrite <- app_assoc; reflexivity).
      rewrite IH by (cbn in H; lia). rewrite <- app_assoc, app_length. cbn.
      f_equal. f_equal. lia.
  Qed.

  Lemma skipn_skipn (l : list B) : forall a b, skipn a (skipn b l) = skipn (b + a) l.
  Proof.
    induction l as [|c l IH]; intros a b; [now rewrite !skipn_nil|].
    destruct b; cbn; [reflexivity|]. apply IH.
  Qed.

  Lemma outer_rows_ok xs ys : forall done rest, (length xs * length ys <= length rest)%nat ->
    outer_rows op xs ys (done ++ rest, length done)
    = Ret (done ++ flat_map (fun x => map (op x) ys) xs ++ skipn (length xs * length ys) rest,
           (length done + length xs * length ys)%nat).
  Proof.
    induction xs as [|x xs IH]; intros done rest H; cbn [outer_rows flat_map length Nat.mul app].
    - cbn [skipn]. now rewrite Nat.add_0_r.
    - cbn [length Nat.mul] in H. rewrite outer_row_ok by lia. cbn [bind].
      replace (length done + length ys)%nat with (length (done ++ map (op x) ys))
        by (rewrite app_length, map_length; reflexivity).
      rewrite app_assoc, IH by (rewrite skipn_length; lia).
      rewrite <- app_assoc, app_length, map_length. f_equal. f_equal; [|lia].
      f_equal. rewrite <- app_assoc. do 2 f_equal. apply skipn_skipn.
  Qed.

  Lemma outer_it_ok xs m : (length xs * length xs <= length m)%nat ->
    outer_it op xs m
    = Ret (flat_map (fun x => map (op x) xs) xs ++ skipn (length xs * length xs) m).
  Proof.
    intro H. unfold outer_it. assert (E := outer_rows_ok xs xs [] m H).
    cbn [app length] in E. rewrite E. reflexivity.
  Qed.

  Lemma outer_vec_ok b0 xs :
    outer_vec op b0 xs = Ret (flat_map (fun x => map (op x) xs) xs).
  Proof.
    unfold outer_vec. rewrite outer_it_ok by now rewrite repeat_length.
    rewrite skipn_all2 by now rewrite repeat_length. now rewrite app_nil_r.
  Qed.

  Lemma outer_length (xs ys : list A) :
    length (flat_map (fun x => map (op x) ys) xs) = (length xs * length ys)%nat.
  Proof. induction xs; cbn; [reflexivity|]. rewrite app_length, map_length. lia. Qed.

  Lemma outer_nth (xs ys : list A) : forall i j x y, nth_error xs i = Some x -> nth_error ys j = Some y ->
    nth_error (flat_map (fun x => map (op x) ys) xs) (length ys * i + j) = Some (op x y).
  Proof.
    induction xs as [|x0 xs IH]; intros i j x y Hi Hj; [destruct i; discriminate|].
    assert (Lj : (j < length ys)%nat) by (apply nth_error_Some; congruence).
    cbn [flat_map]. destruct i as [|i].
    - injection Hi as ->. rewrite Nat.mul_0_r, nth_error_app1 by (rewrite map_length; lia).
      cbn. now apply map_nth_error.
    - rewrite nth_error_app2 by (rewrite map_length; nia). rewrite map_length.
      replace (length ys * S i + j - length ys)%nat with (length ys * i + j)%nat by nia.
      now apply IH.
  Qed.

End OuterFacts.

Definition vars (w : world RN) (us : list nat) : list (ureal RN) := map (w_var w) us.

Lemma C17_cov_matrix_layout_proof : forall (N : Num) (xs : list (ureal N)),
  exists V, cov_matrix xs = Ret V /\ length V = (length xs * length xs)%nat /\
    (forall i j x y, nth_error xs i = Some x -> nth_error xs j = Some y ->
       nth_error V (length xs * i + j) = Some (u_cov x y)).
Proof.
  intros N xs. unfold cov_matrix. rewrite outer_vec_ok. eexists; split; [reflexivity|].
  split; [apply outer_length|]. intros. now apply outer_nth.
Qed.
Lemma C17_corr_matrix_layout_proof : forall (N : Num) (xs : list (ureal N)),
  exists V, corr_matrix xs = Ret V /\ length V = (length xs * length xs)%nat /\
    (forall i j x y, nth_error xs i = Some x -> nth_error xs j = Some y ->
       nth_error V (length xs * i + j) = Some (u_corr x y)).
Proof.
  intros N xs. unfold corr_matrix. rewrite outer_vec_ok. eexists; split; [reflexivity|].
  split; [apply outer_length|]. intros. now apply outer_nth.
Qed.
Lemma C17_iterator_versions_proof : forall (N : Num) (xs : list (ureal N)) (out : list N),
  (length xs * length xs <= length out)%nat ->
  exists V C, cov_matrix xs = Ret V /\ corr_matrix xs = Ret C /\
    cov_matrix_it xs out = Ret (V ++ skipn (length xs * length xs) out) /\
    corr_matrix_it xs out = Ret (C ++ skipn (length xs * length xs) out).
Proof.
  intros N xs out H. unfold cov_matrix, corr_matrix, cov_matrix_it, corr_matrix_it.
  rewrite !outer_vec_ok, !outer_it_ok by assumption. eauto 6.
Qed.
Lemma C17_nom_vector_proof : forall (N : Num) (xs : list (ureal N)), nom_vector xs = map u_n xs.
Proof.
  intros N xs. unfold nom_vector.
  assert (K : forall l acc, fold_left (fun mu (x : ureal N) => mu ++ [u_n x]) l acc = acc ++ map u_n l).
  { induction l as [|x l IH]; intro acc; cbn; [now rewrite app_nil_r|]. rewrite IH, <- app_assoc. reflexivity. }
  apply K.
Qed.

Lemma nth_rsum {A : Type} (l : list A) (d : A) f :
  rsum (seq 0 (length l)) (fun k => f (nth k l d)) = rsum l f.
Proof.
  induction l as [|a l IH]; [reflexivity|]. cbn [length seq rsum nth]. f_equal.
  rewrite <- seq_shift, rsum_map. exact IH.
Qed.

Lemma C17_symmetric_psd_proof : forall w, reachable w -> forall (us : list nat) V,
  cov_matrix (map (w_var w) us) = Ret V ->
  let n := length us in
  (forall i j, (i < n)%nat -> (j < n)%nat -> nth (n * i + j) V 0 = nth (n * j + i) V 0) /\
  (forall a : nat -> R,
     0 <= rsum (seq 0 n) (fun i => rsum (seq 0 n) (fun j => a i * a j * nth (n * i + j) V 0))).
Proof.
  intros w Rw us V E n. destruct (reachable_rep w Rw) as (last & g & B & H).
  destruct (C17_cov_matrix_layout_proof RN (map (w_var w) us)) as (V' & E' & L & F).
  rewrite E in E'; injection E' as <-. rewrite map_length in *. fold n in F.
  assert (Fn : forall i j, (i < n)%nat -> (j < n)%nat ->
     nth (n * i + j) V 0 = lin_cov last (g (nth i us 0%nat)) (g (nth j us 0%nat))).
  { intros i j Hi Hj. apply nth_error_nth. rewrite <- (rep_cov last _ _ _ _ (H _) (H _)).
    apply F; apply map_nth_error; now apply nth_error_nth'. }
  split.
  - intros i j Hi Hj. rewrite !Fn by assumption. apply rsum_ext. intros; ring.
  - intro a.
    rewrite (rsum_ext _ _ (fun i => rsum (seq 0 n) (fun j => rsum (ids last)
        (fun k => (a i * l_coef (g (nth i us 0%nat)) k) * (a j * l_coef (g (nth j us 0%nat)) k))))).
    2:{ intros i Hi. apply in_seq in Hi. apply rsum_ext. intros j Hj. apply in_seq in Hj.
        rewrite Fn by lia. unfold lin_cov, sum_ids. rewrite <- rsum_scal. apply rsum_ext.
        intros k _. ring. }
    rewrite (rsum_ext _ _ (fun i => rsum (ids last) (fun k => rsum (seq 0 n) (fun j =>
        (a i * l_coef (g (nth i us 0%nat)) k) * (a j * l_coef (g (nth j us 0%nat)) k))))).
    2:{ intros i _. apply rsum_swap. }
    rewrite rsum_swap. apply rsum_nonneg. intros k _.
    rewrite <- rsum_mult. apply Rle_0_sqr.
Qed.

(** ** C18 *)

Lemma index_pairs_spec n p : In p (index_pairs n) <-> (fst p < n)%nat /\ (snd p < n)%nat.
Proof.
  unfold index_pairs. rewrite in_flat_map. split.
  - intros (i & Hi & Hp). apply in_map_iff in Hp as (j & <- & Hj).
    apply in_seq in Hi. apply in_seq in Hj. cbn. lia.
  - destruct p as [i j]; cbn. intros [Hi Hj]. exists i. split; [apply in_seq; lia|].
    apply in_map_iff. exists j. split; [reflexivity|apply in_seq; lia].
Qed.

Section Corr2Cov.
  Context {N : Num} (sigma corr : list N).
  Let n := length sigma.
  Hypothesis (HL : length corr = (n * n)%nat).

  Definition c2c_value (i j : nat) : N :=
    nmul (nmul (nth i sigma n0) (nth j sigma n0)) (nth (n * i + j) corr n0).

  Lemma pair_index_inj i j i' j' : (j < n)%nat -> (j' < n)%nat ->
    (n * i + j)%nat = (n * i' + j')%nat -> i = i' /\ j = j'.
  Proof. intros. assert (i = i') by nia. subst. split; [reflexivity|nia]. Qed.

  Lemma c2c_loop l : (forall p, In p l -> (fst p < n)%nat /\ (snd p < n)%nat) ->
    forall buf, length buf = (n * n)%nat ->
    exists buf', fold_left (corr2cov_entry n sigma corr) l (Ret buf) = Ret buf' /\
      length buf' = (n * n)%nat /\
      forall i j, (i < n)%nat -> (j < n)%nat ->
        nth_error buf' (n * i + j) =
        if in_dec (fun p q : nat * nat => ltac:(decide equality; apply Nat.eq_dec)) (i, j) l
        then Some (c2c_value i j) else nth_error buf (n * i + j).
  Proof.
    induction l as [|[i0 j0] l IH]; intros Hl buf Hb.
    - exists buf. split; [reflexivity|]. split; [exact Hb|]. intros i j _ _. reflexivity.
    - destruct (Hl (i0, j0) (or_introl eq_refl)) as [Hi0 Hj0]. cbn [fst snd] in Hi0, Hj0.
      assert (Hk : (n * i0 + j0 < n * n)%nat) by nia.
      cbn [fold_left]. unfold corr2cov_entry at 2. cbn [bind].
      unfold buf_get.
      rewrite (nth_error_nth' sigma n0 Hi0), (nth_error_nth' sigma n0 Hj0). cbn [bind].
      rewrite (nth_error_nth' corr n0) by (rewrite HL; exact Hk). cbn [bind].
      destruct (buf_set_Ret (n * i0 + j0) (c2c_value i0 j0) buf) as (b1 & E1 & L1 & F1); [lia|].
      unfold c2c_value in E1. rewrite E1.
      destruct (IH (fun p Hp => Hl p (or_intror Hp)) b1) as (b2 & E2 & L2 & F2); [congruence|].
      exists b2. split; [exact E2|]. split; [exact L2|]. intros i j Hi Hj. rewrite F2 by assumption.
      rewrite F1.
      destruct (in_dec _ (i, j) l) as [Hin|Hin], (in_dec _ (i, j) ((i0, j0) :: l)) as [Hin'|Hin'];
        try reflexivity.
      + exfalso. apply Hin'. now right.
      + destruct Hin' as [Hin'|Hin']; [|contradiction]. injection Hin' as -> ->.
        rewrite Nat.eqb_refl. reflexivity.
      + destruct (Nat.eqb_spec (n * i + j) (n * i0 + j0)) as [E|_]; [|reflexivity].
        apply pair_index_inj in E as [-> ->]; auto. exfalso. apply Hin'. now left.
  Qed.
End Corr2Cov.

Lemma C18_corr2cov_proof : forall (N : Num) (sigma corr : list N),
  let n := length sigma in
  (corr2cov sigma corr = Throw InvalidArgument <-> length corr <> (n * n)%nat) /\
  (length corr = (n * n)%nat -> exists V, corr2cov sigma corr = Ret V /\ length V = (n * n)%nat /\
     forall i j si sj c, nth_error sigma i = Some si -> nth_error sigma j = Some sj ->
       nth_error corr (n * i + j) = Some c ->
       nth_error V (n * i + j) = Some (nmul (nmul si sj) c)).
Proof.
  intros N sigma corr n.
  assert (Ok : length corr = (n * n)%nat -> exists V, corr2cov sigma corr = Ret V /\ length V = (n * n)%nat /\
     forall i j si sj c, nth_error sigma i = Some si -> nth_error sigma j = Some sj ->
       nth_error corr (n * i + j) = Some c ->
       nth_error V (n * i + j) = Some (nmul (nmul si sj) c)).
  { intro HL. unfold corr2cov. fold n. rewrite (proj2 (Nat.eqb_eq _ _) HL). cbn [negb].
    destruct (c2c_loop sigma corr HL (index_pairs n)) with (buf := repeat (n0 : N) (n * n))
      as (V & E & L & F).
    - intros p Hp. now apply index_pairs_spec.
    - apply repeat_length.
    - exists V. split; [exact E|]. split; [exact L|]. intros i j si sj c Hi Hj Hc.
      assert (Li : (i < n)%nat) by (apply nth_error_Some; congruence).
      assert (Lj : (j < n)%nat) by (apply nth_error_Some; congruence).
      fold n in F. rewrite F by assumption.
      match goal with |- context [in_dec ?d ?p ?l] => destruct (in_dec d p l) as [_|Hn] end.
      + unfold c2c_value. fold n.
        rewrite (nth_error_nth _ _ n0 Hi), (nth_error_nth _ _ n0 Hj), (nth_error_nth _ _ n0 Hc).
        reflexivity.
      + exfalso. apply Hn. apply index_pairs_spec. auto. }
  split; [|exact Ok]. split.
  - intros E HL. destruct (Ok HL) as (V & E' & _). congruence.
  - intro Hn. unfold corr2cov. fold n. apply Nat.eqb_neq in Hn. now rewrite Hn.
Qed.

Lemma C18_corr2cov_inverts_proof : forall w, reachable w -> forall us : list nat,
  (forall u, In u us -> u_s (w_var w u) <> 0) ->
  let xs := map (w_var w) us in
  exists C V, corr_matrix xs = Ret C /\ cov_matrix xs = Ret V /\ corr2cov (map u_s xs) C = Ret V.
Proof.
  intros w Rw us Hs xs.
  destruct (C17_corr_matrix_layout_proof RN xs) as (C & EC & LC & FC).
  destruct (C17_cov_matrix_layout_proof RN xs) as (V & EV & LV & FV).
  exists C, V. split; [exact EC|]. split; [exact EV|].
  destruct (C18_corr2cov_proof RN (map u_s xs) C) as [_ H]. rewrite map_length in H.
  destruct (H LC) as (V' & E' & L' & F'). rewrite E'. f_equal.
  apply nth_ext with (d := 0) (d' := 0); [congruence|]. intros k Hk.
  assert (Hn : length xs <> 0%nat) by (intro E0; rewrite L', E0 in Hk; cbn in Hk; lia).
  set (n := length xs) in *.
  assert (Ek : k = (n * (k / n) + k mod n)%nat) by (apply Nat.div_mod; exact Hn).
  assert (Lj : (k mod n < n)%nat) by (apply Nat.mod_upper_bound; exact Hn).
  assert (Li : (k / n < n)%nat) by (apply Nat.div_lt_upper_bound; lia).
  rewrite Ek. set (i := (k / n)%nat) in *. set (j := (k mod n)%nat) in *.
  destruct (nth_error xs i) as [x|] eqn:Ex; [|apply nth_error_None in Ex; fold n in Ex; lia].
  destruct (nth_error xs j) as [y|] eqn:Ey; [|apply nth_error_None in Ey; fold n in Ey; lia].
  assert (Fx := FC i j x y Ex Ey). assert (Fy := FV i j x y Ex Ey).
  etransitivity; [exact (nth_error_nth _ _ 0 (F' i j _ _ _ (map_nth_error u_s i xs Ex) (map_nth_error u_s j xs Ey) Fx))|].
  symmetry. etransitivity; [exact (nth_error_nth _ _ 0 Fy)|]. symmetry.
  assert (Sx : u_s x <> 0).
  { apply nth_error_In in Ex. apply in_map_iff in Ex as (u & <- & Hu). auto. }
  assert (Sy : u_s y <> 0).
  { apply nth_error_In in Ey. apply in_map_iff in Ey as (u & <- & Hu). auto. }
  unfold u_corr. cbn. nR. field. auto.
Qed.
