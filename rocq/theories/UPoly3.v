(** * UPoly3: covariances and deviations of programs of +, - and * on UReal<double> (C83) *)

From Coq Require Import List ZArith Bool Reals Lra Lia Psatz.
From Coquelicot Require Import Coquelicot.
From Flocq Require Import Core BinarySingleNaN.
From Verif Require Import Base Num Map UReal World URealFacts Sums SpecLin SpecObs URealR URealProofs URealProofs2 SpecCast ConvProofs.
From Verif Require Import Ieee IeeeFacts SpecIeee IeeeProofs IeeeProofs2 IeeeProofs3 IeeeProofs4 IeeeCov IeeeRel SpecMathIeee2 MathAcc6 IoAcc1 SpecAcc2 Track AccMom2 SpecAcc3 PolyAcc3 SpecAcc4 UPoly UPoly2.
Import ListNotations.
Local Open Scope R_scope.

(** ** cov depends on the ids and on the coefficients *)
Definition like {N : Num} (x y : ureal N) : Prop := uid x = uid y /\ ((0 < uid x)%Z -> usdev x = usdev y) /\ usigma x = usigma y.
Lemma cov_like {N : Num} (x x' y y' : ureal N) : like x x' -> like y y' -> u_cov x y = u_cov x' y'.
Proof.
  intros (A & B & C) (A' & B' & C'). unfold u_cov. rewrite <- A, <- A', <- C, <- C'.
  destruct (Z.ltb_spec 0 (uid x)) as [X|X], (Z.ltb_spec 0 (uid y)) as [Y|Y]; cbn [andb].
  - now rewrite (B X), (B' Y).
  - rewrite (B X), andb_false_r. reflexivity.
  - rewrite (B' Y). reflexivity.
  - rewrite andb_false_r. reflexivity.
Qed.
Definition cw {N M : Num} (c : N -> M) (x : ureal N) : ureal M := mkU (uid x) (c (usdev x)) (c (umu x)) (mmap c (usigma x)).
Lemma loop_cw {N M : Num} (c : N -> M) (K : keeps_ring c) xs : forall ys a, u_cov_loop (N := M) (mmap c xs) (mmap c ys) (c a) = c (u_cov_loop xs ys a).
Proof.
  induction xs as [|[xk xv] xs IHx]; intro ys; [intro a; destruct ys as [|[? ?] ?]; reflexivity|].
  induction ys as [|[yk yv] ys IHy]; intro a; [reflexivity|].
  assert (E : (if (xk =? yk)%Z then nadd (c a) (nmul (c xv) (c yv)) else c a) = c (if (xk =? yk)%Z then nadd a (nmul xv yv) else a)).
  { destruct (xk =? yk)%Z; [now rewrite (c_add c K), (c_mul c K)|reflexivity]. }
  cbn [mmap map fst snd] in *. cbn [u_cov_loop].
  destruct (Z.leb_spec xk yk) as [Hle|Hgt].
  - destruct (Z.leb_spec yk xk) as [Hle2|Hlt].
    + rewrite <- IHx. f_equal. exact E.
    + change ((yk, c yv) :: map (fun kv => (fst kv, c (snd kv))) ys) with (mmap c ((yk, yv) :: ys)). rewrite <- IHx. f_equal. exact E.
  - destruct (Z.eqb_spec xk yk); [lia|]. apply IHy.
Qed.
Lemma cov_cw {N M : Num} (c : N -> M) (K : keeps_ring c) x y : u_cov (cw c x) (cw c y) = c (u_cov x y).
Proof.
  unfold u_cov. cbn [cw uid usdev usigma]. destruct ((0 <? uid x) && (0 <? uid y))%Z.
  - destruct (uid x =? uid y)%Z; rewrite ?(c_add c K), ?(c_mul c K), (c_0 c K); reflexivity.
  - destruct ((uid x <? 0) && (0 <? uid y))%Z; [rewrite mfind_mmap; destruct (mfind _ _); cbn [option_map]; rewrite ?(c_add c K), ?(c_mul c K), (c_0 c K); reflexivity|].
    destruct ((0 <? uid x) && (uid y <? 0))%Z; [rewrite mfind_mmap; destruct (mfind _ _); cbn [option_map]; rewrite ?(c_add c K), ?(c_mul c K), (c_0 c K); reflexivity|].
    destruct ((uid x <? 0) && (uid y <? 0))%Z; [|symmetry; apply (c_0 c K)]. rewrite <- (c_0 c K). apply (loop_cw c K).
Qed.
Lemma same_like {N M : Num} (c : N -> M) l l' x y : wf l x -> wf l' y -> same c x y -> like (cw c x) y.
Proof.
  intros Wx Wy (U & _ & F). split; [symmetry; exact U|]. cbn [cw uid usdev usigma]. split.
  - intro P. specialize (F (uid x)). unfold ufind in F. rewrite U, Z.eqb_refl in F. destruct (Z.ltb_spec 0 (uid x)); [|lia]. cbn in F. congruence.
  - destruct (Z.ltb_spec (uid x) 0) as [Ng|Ng]; [|rewrite (wf_nonneg _ _ Wx Ng), (wf_nonneg _ _ Wy) by (rewrite U; exact Ng); reflexivity].
    apply msorted_ext; [apply msorted_mmap, Wx|apply Wy|]. intro k. specialize (F k). unfold ufind in F. rewrite U in F. destruct (Z.ltb_spec 0 (uid x)); [lia|]. destruct (Z.ltb_spec (uid x) 0); [|lia].
    rewrite F. apply mfind_mmap.
Qed.
Lemma like_sym {N : Num} (x y : ureal N) : like x y -> like y x.
Proof. intros (A & B & C). split; [auto|]. split; [|auto]. intro P. symmetry. apply B. now rewrite A. Qed.
Lemma like_trans {N : Num} (x y z : ureal N) : like x y -> like y z -> like x z.
Proof. intros (A & B & C) (A' & B' & C'). split; [congruence|]. split; [|congruence]. intro P. rewrite B by exact P. apply B'. now rewrite <- A. Qed.
Lemma cw_comp {N M Q : Num} (f : N -> M) (g : M -> Q) x : cw g (cw f x) = cw (fun a => g (f a)) x.
Proof. unfold cw. cbn [uid usdev umu usigma]. f_equal. unfold mmap. rewrite map_map. reflexivity. Qed.

(** ** The query on numbers taken as exact *)
Definition sx1 (K : nat) (x : ureal WN) : ureal WN := cw (N := WN) (M := WN) (settle K) x.
Lemma sx1_td K x : cw (N := WN) (M := DN) td (sx1 K x) = cw (N := WN) (M := DN) td x. Proof. unfold sx1. now rewrite cw_comp. Qed.
Lemma sx1_tr K x : cw (N := WN) (M := RN) tr (sx1 K x) = cw (N := WN) (M := RN) tr x. Proof. unfold sx1. now rewrite cw_comp. Qed.
Lemma sx1_ta K x : cw (N := WN) (M := sizes 0) ta (sx1 K x) = cw (N := WN) (M := sizes 0) ta x. Proof. unfold sx1. now rewrite cw_comp. Qed.
Lemma sx1_tb l l' K x b : wf l x -> wf l' b -> kc1 K x -> same (N := WN) (M := sizes tiny) tb x b ->
  like (cw (N := WN) (M := sizes tiny) tb (sx1 K x)) (inflate1 tiny K b).
Proof.
  intros Wx Wb [_ Kx] S. assert (Lk := same_like (N := WN) (M := sizes tiny) tb l l' x b Wx Wb S). destruct Lk as (A & B & C). cbn [cw uid usdev usigma] in A, B, C.
  assert (Ec := convert_sigma (N := sizes tiny) (M := sizes tiny) (fun a : R => (1 + uround) ^ K * a) b (wf_sorted _ _ Wb)).
  unfold sx1. rewrite cw_comp. split; [exact A|]. cbn [cw uid usdev usigma]. split.
  - intro P. unfold inflate1. cbn [u_convert usdev]. rewrite <- (B P). cbn [settle tb]. rewrite Nat.max_l; [reflexivity|].
    apply (Kx (uid x)). unfold ufind. rewrite Z.eqb_refl. destruct (Z.ltb_spec 0 (uid x)); [reflexivity|lia].
  - unfold inflate1. rewrite Ec, <- C. unfold mmap. rewrite map_map. apply map_ext_in. intros [k a] Hk. cbn [fst snd settle tb]. f_equal. rewrite Nat.max_l; [reflexivity|].
    destruct (Z.ltb_spec (uid x) 0) as [Ng|Ng]; [|rewrite (wf_nonneg _ _ Wx Ng) in Hk; destruct Hk].
    apply (Kx k). unfold ufind. destruct (Z.ltb_spec 0 (uid x)); [lia|]. destruct (Z.ltb_spec (uid x) 0); [|lia]. apply In_mfind; [apply Wx|exact Hk].
Qed.
(** Roundings of a covariance of exact numbers. *)
Local Open Scope nat_scope.
Definition zero_k (s : list (Z * WN)) : Prop := forall k a, In (k, a) s -> tk a = 0.
Lemma kloop xs : forall ys (acc : WN) j, zero_k xs -> zero_k ys -> tk acc <= S j -> tk (u_cov_loop xs ys acc) <= S (j + Nat.min (length xs) (length ys)).
Proof.
  induction xs as [|[xk xv] xs IHx]; intros ys acc j Zx Zy A; [destruct ys; cbn; lia|].
  assert (Zx' : zero_k xs) by (intros k a H; apply (Zx k a); now right). assert (Ex : tk xv = 0) by (apply (Zx xk); now left).
  revert acc j A. induction ys as [|[yk yv] ys IHy]; intros acc j A; [cbn; lia|].
  assert (Zy' : zero_k ys) by (intros k a H; apply (Zy k a); now right). assert (Ey : tk yv = 0) by (apply (Zy yk); now left).
  cbn [u_cov_loop]. destruct (Z.leb_spec xk yk).
  - destruct (Z.leb_spec yk xk).
    + replace (xk =? yk)%Z with true by (symmetry; apply Z.eqb_eq; lia).
      eapply Nat.le_trans; [apply (IHx ys _ (S j) Zx' Zy')|cbn [length]; lia].
      assert (Q := kmul xv yv 0 0 (Nat.eq_le_incl _ _ Ex) (Nat.eq_le_incl _ _ Ey)). assert (Q2 := kadd acc (nmul (n := WN) xv yv) (S j) A (Nat.le_trans _ _ _ Q (le_n_S _ _ (Nat.le_0_l j)))). exact Q2.
    + destruct (Z.eqb_spec xk yk); [lia|]. eapply Nat.le_trans; [apply (IHx _ _ j Zx' Zy A)|cbn [length]; lia].
  - destruct (Z.eqb_spec xk yk); [lia|]. specialize (IHy Zy' acc j A). eapply Nat.le_trans; [exact IHy|cbn [length]; lia].
Qed.
Definition n_coef {N : Num} (x : ureal N) : nat := if (0 <? uid x)%Z then 1 else if (uid x <? 0)%Z then length (usigma x) else 0.
Lemma kcov K K' x y : tk (u_cov (sx1 K x) (sx1 K' y)) <= S (Nat.min (n_coef x) (n_coef y)).
Proof.
  assert (Zs : forall J (z : ureal WN), zero_k (usigma (sx1 J z))).
  { intros J z k a H. cbn [sx1 cw usigma mmap] in H. apply in_map_iff in H as ([k' a'] & E & _). cbn [fst snd] in E. injection E as _ <-. reflexivity. }
  assert (Zd : forall J (z : ureal WN), tk (usdev (sx1 J z)) = 0) by reflexivity.
  assert (Fd : forall J (z : ureal WN) k a, mfind k (usigma (sx1 J z)) = Some a -> tk a = 0) by (intros J z k a H; apply mfind_In in H; exact (Zs J z k a H)).
  assert (One : forall a b : WN, tk a = 0 -> tk b = 0 -> tk (nadd (n0 : WN) (nmul a b)) <= 2).
  { intros a b Ha Hb. apply kadd; [rewrite k0; lia|]. apply (kmul a b 0 0); lia. }
  unfold u_cov, n_coef. change (uid (sx1 K x)) with (uid x). change (uid (sx1 K' y)) with (uid y).
  destruct (Z.ltb_spec 0 (uid x)) as [X|X], (Z.ltb_spec 0 (uid y)) as [Y|Y]; cbn [andb].
  - destruct (uid x =? uid y)%Z; [apply One; apply Zd|rewrite k0; lia].
  - destruct (Z.ltb_spec (uid x) 0); [lia|]. cbn [andb]. destruct (Z.ltb_spec (uid y) 0); cbn [andb]; [|rewrite k0; lia].
    destruct (mfind _ _) eqn:E; [|rewrite k0; lia]. eapply Nat.le_trans; [apply One; [apply Zd|exact (Fd _ _ _ _ E)]|]. apply mfind_In in E. cbn [sx1 cw usigma mmap] in E. destruct (usigma y); [destruct E|cbn [length]; lia].
  - destruct (Z.ltb_spec (uid x) 0); cbn [andb]; [|destruct (Z.ltb_spec (uid y) 0); [lia|]; cbn [andb]; rewrite k0; lia].
    destruct (mfind _ _) eqn:E; [|rewrite k0; lia]. eapply Nat.le_trans; [apply One; [exact (Fd _ _ _ _ E)|apply Zd]|]. apply mfind_In in E. cbn [sx1 cw usigma mmap] in E. destruct (usigma x); [destruct E|cbn [length]; lia].
  - destruct (Z.ltb_spec (uid x) 0), (Z.ltb_spec (uid y) 0); cbn [andb]; try (rewrite k0; lia).
    assert (Q := kloop (usigma (sx1 K x)) (usigma (sx1 K' y)) n0 0 (Zs K x) (Zs K' y) ltac:(rewrite k0; lia)). unfold sx1, cw, mmap in Q. cbn [usigma] in Q. rewrite !map_length in Q. exact Q.
Qed.
Local Open Scope R_scope.
Lemma n_coef_coefs (x : ureal DN) : n_coef x = length (coefs x).
Proof. unfold n_coef, coefs. destruct (0 <? uid x)%Z; [reflexivity|]. destruct (uid x <? 0)%Z; [now rewrite map_length|reflexivity]. Qed.
Lemma n_coef_like {N M : Num} (c : N -> M) x y : like (cw c x) y -> n_coef x = n_coef y.
Proof. intros (A & _ & C). cbn [cw uid usigma] in A, C. unfold n_coef. rewrite <- A, <- C. unfold mmap. now rewrite map_length. Qed.

Lemma u83_covariances : forall cs, dlegal cs -> List.Forall upoly cs ->
  exists (w : world DN) (wr : world RN) (wa : world (sizes 0)) (wb : world (sizes tiny)),
    run w_init cs = Ret w /\ run w_init (map exact_ucall cs) = Ret wr /\
    run w_init (map (sized_ucall 0) cs) = Ret wa /\ run w_init (map (sized_ucall tiny) cs) = Ret wb /\
    forall u v, finite (u_cov (w_var w u) (w_var w v)) ->
      approximates (u_cov (w_var w u) (w_var w v)) (u_cov (w_var wr u) (w_var wr v)) (u_cov (w_var wa u) (w_var wa v))
        (u_cov (inflate1 tiny (urounds cs u) (w_var wb u)) (inflate1 tiny (urounds cs v) (w_var wb v)))
        (S (Nat.min (length (coefs (w_var w u))) (length (coefs (w_var w v))))).
Proof.
  intros cs L P. destruct (all_uruns cs L P) as (wP & w & wr & wa & wb & Ed & Er & Ea & Eb & [Ld Sd] & [Lr Sr] & [_ Sa] & [_ Sb] & WP & Wd & Wr & Wa & Wb & Kk).
  exists w, wr, wa, wb. split; [exact Ed|]. split; [exact Er|]. split; [exact Ea|]. split; [exact Eb|]. intros u v.
  set (t := u_cov (sx1 (urounds cs u) (w_var wP u)) (sx1 (urounds cs v) (w_var wP v))).
  assert (Lkd : forall s, like (cw (N := WN) (M := DN) td (w_var wP s)) (w_var w s)) by (intro s; exact (same_like _ _ _ _ _ (proj2 WP s) (proj2 Wd s) (Sd s))).
  assert (Lkr : forall s, like (cw (N := WN) (M := RN) tr (w_var wP s)) (w_var wr s)) by (intro s; exact (same_like _ _ _ _ _ (proj2 WP s) (proj2 Wr s) (Sr s))).
  assert (Lka : forall s, like (cw (N := WN) (M := sizes 0) ta (w_var wP s)) (w_var wa s)) by (intro s; exact (same_like _ _ _ _ _ (proj2 WP s) (proj2 Wa s) (Sa s))).
  assert (Lkb : forall s, like (cw (N := WN) (M := sizes tiny) tb (sx1 (urounds cs s) (w_var wP s))) (inflate1 tiny (urounds cs s) (w_var wb s)))
    by (intro s; exact (sx1_tb _ _ _ _ _ (proj2 WP s) (proj2 Wb s) (Kk s) (Sb s))).
  assert (Qd : u_cov (w_var w u) (w_var w v) = td t).
  { unfold t. rewrite <- (cov_cw (N := WN) (M := DN) td wd_ring), !sx1_td. symmetry. apply cov_like; apply Lkd. }
  assert (Qr : u_cov (w_var wr u) (w_var wr v) = tr t).
  { unfold t. rewrite <- (cov_cw (N := WN) (M := RN) tr wr_ring), !sx1_tr. symmetry. apply cov_like; apply Lkr. }
  assert (Qa : u_cov (w_var wa u) (w_var wa v) = ta t).
  { unfold t. rewrite <- (cov_cw (N := WN) (M := sizes 0) ta wa_ring), !sx1_ta. symmetry. apply cov_like; apply Lka. }
  assert (Qb : u_cov (inflate1 tiny (urounds cs u) (w_var wb u)) (inflate1 tiny (urounds cs v) (w_var wb v)) = tb t).
  { unfold t. rewrite <- (cov_cw (N := WN) (M := sizes tiny) tb wb_ring). symmetry. apply cov_like; apply Lkb. }
  rewrite Qd, Qr, Qa, Qb. apply approx_of. rewrite <- !n_coef_coefs, <- (n_coef_like _ _ _ (Lkd u)), <- (n_coef_like _ _ _ (Lkd v)). apply kcov.
Qed.
