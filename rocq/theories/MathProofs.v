(** * MathProofs: derivatives used by the UReal part of math.hpp (C21, C22) *)

From Coq Require Import List ZArith Bool Reals Lra Lia.
From Coquelicot Require Import Coquelicot.
From Flocq Require Import Core.
From Verif Require Import Base Num Map UReal World Sums SpecLin SpecObs URealFacts URealR URealProofs.
From Verif Require Import Nan Math SpecMath Derivs Derivs2d ADProofs.
Import ListNotations.
Local Open Scope R_scope.

(** ** unary and binary commute with [lift] *)

Notation up := (map (fun kv : Z * T RN => (fst kv, Some (snd kv) : T FN))).

Lemma up_mset k (v : R) m : mset (K := Z) k (Some v : T FN) (up m) = up (mset k (v : T RN) m).
Proof.
  induction m as [|[k' v'] m IH]; [reflexivity|]. cbn [map mset fst snd].
  destruct (kcmp k k'); cbn [map fst snd]; [reflexivity|reflexivity|]. now rewrite IH.
Qed.
Lemma up_mfind k m : mfind (K := Z) k (up m) = option_map (fun v => Some v : T FN) (mfind k m).
Proof.
  induction m as [|[k' v'] m IH]; [reflexivity|]. cbn [map mfind fst snd].
  destruct (kcmp k k'); cbn [map fst snd option_map]; [reflexivity|reflexivity|]. now rewrite IH.
Qed.
Lemma up_mget k m : mget (K := Z) (n0 : T FN) k (up m) = Some (mget (n0 : T RN) k m).
Proof. unfold mget. rewrite up_mfind. destruct (mfind k m); reflexivity. Qed.
Lemma up_mupd k d (v : R) m :
  mupd (K := Z) (n0 : T FN) k (fun p => nadd p (nmul (Some d : T FN) (Some v : T FN))) (up m)
  = up (mupd (n0 : T RN) k (fun p => nadd p (nmul (d : T RN) (v : T RN))) m).
Proof. unfold mupd. rewrite up_mget. cbn -[mset]. apply up_mset. Qed.
Lemma up_copy d s : forall z,
  u_copy_scaled (N := FN) (Some d) (up s) (up z) = up (u_copy_scaled (N := RN) d s z).
Proof.
  unfold u_copy_scaled. induction s as [|[k v] s IH]; intro z; [reflexivity|].
  cbn [map fold_left fst snd]. rewrite <- IH. f_equal. exact (up_mset k (d * v) z).
Qed.
Lemma up_add d s : forall z,
  u_add_scaled (N := FN) (Some d) (up s) (up z) = up (u_add_scaled (N := RN) d s z).
Proof.
  unfold u_add_scaled. induction s as [|[k v] s IH]; intro z; [reflexivity|].
  cbn [map fold_left fst snd]. rewrite <- IH. f_equal. exact (up_mupd k d v z).
Qed.
Lemma up_merge dx dy xs : forall ys z,
  u_merge (N := FN) (Some dx) (Some dy) (up xs) (up ys) (up z)
  = omap (fun s => up s) (u_merge (N := RN) dx dy xs ys z).
Proof.
  induction xs as [|[kx vx] xs IHx].
  - induction ys as [|[ky vy] ys IHy]; intro z; [reflexivity|].
    cbn [map fst snd u_merge]. destruct (maxid <=? ky)%Z; [reflexivity|].
    rewrite <- IHy. apply (f_equal (u_merge (N := FN) (Some dx) (Some dy) (up []) (up ys))).
    exact (up_mset ky (0 + dy * vy) z).
  - induction ys as [|[ky vy] ys IHy]; intro z.
    + cbn [map fst snd u_merge]. destruct (kx <=? maxid)%Z; [|reflexivity].
      destruct (maxid <=? kx)%Z; [reflexivity|].
      change (@nil (Z * T FN)) with (up (@nil (Z * T RN))).
      rewrite <- IHx. apply (f_equal (u_merge (N := FN) (Some dx) (Some dy) (up xs) (up []))).
      exact (up_mset kx (dx * vx) z).
    + cbn [map fst snd u_merge]. destruct (kx <=? ky)%Z.
      * destruct (ky <=? kx)%Z.
        -- rewrite <- IHx. apply (f_equal (u_merge (N := FN) (Some dx) (Some dy) (up xs) (up ys))).
           etransitivity; [|exact (up_mupd kx dy vy (mset kx (dx * vx : T RN) z))].
           f_equal. exact (up_mset kx (dx * vx) z).
        -- change ((ky, Some vy : T FN) :: up ys) with (up ((ky, vy : T RN) :: ys)).
           rewrite <- IHx. apply (f_equal (u_merge (N := FN) (Some dx) (Some dy) (up xs) (up ((ky, vy : T RN) :: ys)))).
           exact (up_mset kx (dx * vx) z).
      * rewrite <- IHy. apply (f_equal (u_merge (N := FN) (Some dx) (Some dy) (up ((kx, vx : T RN) :: xs)) (up ys))).
        exact (up_mset ky (0 + dy * vy) z).
Qed.

Lemma lift_unary (x : ureal RN) (mu d : R) :
  u_unary (lift x) (Some mu : FN) (Some d : FN) = lift (u_unary x (mu : RN) (d : RN)).
Proof.
  destruct x as [i s m sg]. unfold u_unary, lift. cbn [uid usdev umu usigma].
  destruct (0 <? i)%Z; [reflexivity|].
  destruct (i <? 0)%Z; [|reflexivity]. cbn [uid usdev umu usigma].
  f_equal. unfold mmap. rewrite !map_map. reflexivity.
Qed.
Lemma lift_binary (x y : ureal RN) (mu dx dy : R) :
  u_binary (lift x) (lift y) (Some mu : FN) (Some dx : FN) (Some dy : FN)
  = omap lift (u_binary x y (mu : RN) (dx : RN) (dy : RN)).
Proof.
  destruct x as [ix sx mx sgx], y as [iy sy my sgy].
  unfold u_binary. cbv zeta.
  change (uid (lift (mkU ix sx mx sgx))) with ix. change (uid (lift (mkU iy sy my sgy))) with iy.
  change (usdev (lift (mkU ix sx mx sgx))) with (Some sx). change (usdev (lift (mkU iy sy my sgy))) with (Some sy).
  change (usigma (lift (mkU ix sx mx sgx))) with (up sgx). change (usigma (lift (mkU iy sy my sgy))) with (up sgy).
  cbn [uid usdev umu usigma].
  set (z1 := if (0 <? ix)%Z then mset ix (nmul (dx : RN) sx) []
             else if ((ix <? 0) && (0 <=? iy))%Z%bool then u_copy_scaled (N := RN) dx sgx [] else []).
  match goal with |- bind (if _ then u_merge _ _ _ _ (if _ then _ else if _ then _ else ?e) else _) _ = _ =>
    assert (E1 : e = up z1) end.
  { unfold z1. destruct (0 <? ix)%Z; [reflexivity|].
    destruct ((ix <? 0) && (0 <=? iy))%Z%bool; [exact (up_copy dx sgx [])|reflexivity]. }
  rewrite E1. clear E1. clearbody z1.
  set (z2 := if (0 <? iy)%Z then mupd n0 iy (fun p => nadd p (nmul (dy : RN) sy)) z1
             else if ((iy <? 0) && (0 <=? ix))%Z%bool then u_add_scaled (N := RN) dy sgy z1 else z1).
  match goal with |- bind (if _ then u_merge _ _ _ _ ?e else _) _ = _ =>
    assert (E1 : e = up z2) end.
  { unfold z2. destruct (0 <? iy)%Z; [exact (up_mupd iy dy sy z1)|].
    destruct ((iy <? 0) && (0 <=? ix))%Z%bool; [exact (up_add dy sgy z1)|reflexivity]. }
  rewrite E1. clear E1. clearbody z2.
  destruct ((ix <? 0) && (iy <? 0))%Z%bool.
  - etransitivity; [apply f_equal2; [exact (up_merge dx dy sgx sgy z2)|reflexivity]|].
    destruct (u_merge (N := RN) dx dy sgx sgy z2); reflexivity.
  - reflexivity.
Qed.

(** ** from derivatives to observations *)

Lemma divisions_app cs1 : forall w cs2,
  divisions_ok w (cs1 ++ cs2) <-> divisions_ok w cs1 /\ divisions_ok (spec_run w cs1) cs2.
Proof.
  induction cs1 as [|c cs1 IH]; intros w cs2; cbn; [tauto|]. rewrite IH. tauto.
Qed.
Lemma run_app cs1 : forall (w w1 : world RN) cs2, run w cs1 = Ret w1 -> run w (cs1 ++ cs2) = run w1 cs2.
Proof.
  induction cs1 as [|c cs1 IH]; intros w w1 cs2; cbn; [now intros [= ->]|].
  destruct (exec w c) as [w' [| | |]]; try congruence; apply IH.
Qed.
Lemma reachable_snoc w c w' : reachable w ->
  nary_ok c -> is_new c = false ->
  (forall v x y, c <> CDiv v x y) -> (forall v x, c <> CDivA v x) ->
  run w [c] = Ret w' -> reachable w'.
Proof.
  intros (cs & (L1 & L2 & L3) & E) Hn Hi Hd Hda Er. exists (cs ++ [c]). split.
  - split; [apply Forall_app; split; [exact L1|now repeat constructor]|]. split.
    + apply divisions_app. split; [exact L2|]. destruct c; cbn; try tauto.
      * exfalso; eapply Hd; reflexivity.
      * exfalso; eapply Hda; reflexivity.
    + unfold count_new in *. rewrite filter_app. cbn. rewrite Hi, app_nil_r. exact L3.
  - now rewrite (run_app cs w_init w [c] E).
Qed.
Lemma reachable_unary w v t (m d : R) : reachable w -> reachable (w_set w t (u_unary (w_var w v) m d)).
Proof.
  intro H. apply (reachable_snoc w (CUnary t v (fun _ => m) (fun _ => d))); try easy.
Qed.
Lemma reachable_binary w u v t (m dx dy : R) z : reachable w ->
  u_binary (w_var w u) (w_var w v) m dx dy = Ret z -> reachable (w_set w t z).
Proof.
  intros H E. apply (reachable_snoc w (CBinary t u v (fun _ _ => m) (fun _ _ => dx) (fun _ _ => dy))); try easy.
  cbn. now rewrite E.
Qed.

Lemma computes1_intro m (dom : R -> Prop) (f f1 : R -> R) : (forall x : R, dom x -> is_derive f x (f1 x)) ->
  (forall x : ureal RN, dom (u_n x) -> m (lift x) = u_unary (lift x) (Some (f (u_n x)) : FN) (Some (f1 (u_n x)) : FN)) ->
  computes1 m dom f.
Proof.
  intros D M w v Hw x Hx. destruct (reachable_rep w Hw) as (last & g & B & H).
  exists (u_unary x (f (u_n x) : RN) (f1 (u_n x) : RN)), (f1 (u_n x)).
  assert (Ru : rep last (u_unary x (f (u_n x) : RN) (f1 (u_n x) : RN)) (lin_unary (g v) (f (u_n x)) (f1 (u_n x))))
    by (apply rep_unary; [apply H|reflexivity|reflexivity]).
  split; [rewrite M by assumption; apply lift_unary|]. split; [now apply D|].
  split; [exact (rep_mean _ _ _ Ru)|]. split; [|split].
  - rewrite (rep_s last _ _ Ru), (rep_s last x _ (H v)). unfold lin_sdev, lin_var.
    rewrite lin_cov_unary. set (d := f1 (u_n x)). set (m' := f (u_n x)).
    replace (lin_cov last (g v) (lin_unary (g v) m' d)) with (d * lin_cov last (g v) (g v)).
    + rewrite <- Rmult_assoc. rewrite sqrt_mult_alt by (apply Rle_0_sqr). now rewrite <- sqrt_Rsqr_abs.
    + unfold lin_cov, sum_ids. rewrite <- rsum_scal. apply rsum_ext. intros; cbn; ring.
  - intro t. rewrite (rep_cov last _ _ _ _ Ru (H t)), (rep_cov last x _ _ _ (H v) (H t)).
    apply lin_cov_unary.
  - intro t. now apply reachable_unary.
Qed.

Lemma computes2_intro m (dom : R -> R -> Prop) (f fx fy : R -> R -> R) : (forall x y : R, dom x y -> differentiable_pt_lim f x y (fx x y) (fy x y)) ->
  (forall x y : ureal RN, dom (u_n x) (u_n y) -> m (lift x) (lift y) =
     u_binary (lift x) (lift y) (Some (f (u_n x) (u_n y)) : FN) (Some (fx (u_n x) (u_n y)) : FN)
       (Some (fy (u_n x) (u_n y)) : FN)) ->
  computes2 m dom f.
Proof.
  intros D M w u v Hw x y Hxy. destruct (reachable_rep w Hw) as (last & g & B & H).
  set (mu := f (u_n x) (u_n y)). set (dx := fx (u_n x) (u_n y)). set (dy := fy (u_n x) (u_n y)).
  destruct (rep_binary last x y (g u) (g v) mu dx dy mu dx dy (H u) (H v)) as (z & E & Rz); auto; [lia|].
  exists z, dx, dy. split; [rewrite M by assumption; rewrite lift_binary; exact (f_equal (omap lift) E)|].
  split; [now apply D|]. split; [exact (rep_mean _ _ _ Rz)|]. split; [|split].
  - rewrite (rep_var last _ _ Rz), (rep_var last x _ (H u)), (rep_var last y _ (H v)),
      (rep_cov last x y _ _ (H u) (H v)).
    unfold lin_var, lin_cov, sum_ids. rewrite <- !rsum_scal, <- !rsum_plus. apply rsum_ext. intros; cbn; ring.
  - intro t. rewrite (rep_cov last _ _ _ _ Rz (H t)), (rep_cov last x _ _ _ (H u) (H t)), (rep_cov last y _ _ _ (H v) (H t)).
    apply lin_cov_binary.
  - intro t. exact (reachable_binary w u v t mu dx dy z Hw E).
Qed.

(** ** the functions *)

Lemma std1 x' (m m' d d' : FN) : m = m' -> d = d' ->
  u_unary (N := FN) x' m d = u_unary (N := FN) x' m' d'.
Proof. now intros -> ->. Qed.

(** the instance of the text of math.hpp *)
Ltac std_instance :=
  cbv beta delta [g_abs g_fmod g_remainder g_fmax g_fmin g_exp g_exp2 g_expm1 g_log g_log10 g_log2 g_log1p g_pow g_sqrt g_cbrt g_hypot g_sin g_cos g_tan g_asin g_acos g_atan g_atan2 g_sinh g_cosh g_tanh g_asinh g_acosh g_atanh g_erf g_erfc];
  cbv iota beta delta [c_trunc c_round c_exp c_exp2 c_expm1 c_log c_log10 c_log2 c_log1p c_cbrt c_sin c_cos c_tan c_asin c_acos c_atan c_sinh c_cosh c_tanh c_asinh c_acosh c_atanh c_erf c_erfc c_fmod c_remainder c_fmax c_fmin c_pow c_hypot c_atan2 std_cmath];
  fold std_cmath erf_coeff; change (@nsqrt FN) with std_sqrt; change (@nabs FN) with std_abs.
Ltac m1 D :=
  eapply computes1_intro; [exact (proj1 (proj2 D))|]; intros x H; cbn beta in *;
  match goal with |- ?m (lift x) = _ => unfold m end; std_instance; cbv zeta;
  change (u_n (lift x)) with (Some (u_n x) : FN); apply std1; generalize dependent (u_n x); intros x0; try intro H;
  unfold lit; cbn [nofZ FN].
Lemma some_div (a b : R) : b <> 0 -> ndiv (Some a : FN) (Some b : FN) = Some (a / b).
Proof. intro H. cbn. destruct (Req_EM_T b 0); [contradiction|reflexivity]. Qed.
Lemma some_mul (a b : R) : nmul (Some a : FN) (Some b : FN) = Some (a * b).
Proof. reflexivity. Qed.
Lemma some_add (a b : R) : nadd (Some a : FN) (Some b : FN) = Some (a + b).
Proof. reflexivity. Qed.
Lemma some_sub (a b : R) : nsub (Some a : FN) (Some b : FN) = Some (a - b).
Proof. reflexivity. Qed.
Lemma some_opp (a : R) : nopp (Some a : FN) = Some (- a).
Proof. reflexivity. Qed.
Lemma some_dom (d : R -> bool) f (a : R) : d a = true -> fp_dom d f (Some a) = Some (f a).
Proof. intro H. cbn. now rewrite H. Qed.
Lemma std_log_pos a : 0 < a -> std_log (Some a) = Some (ln a).
Proof. intro H. apply some_dom. now apply Rltb_true. Qed.
Lemma std_sqrt_pos a : 0 <= a -> std_sqrt (Some a) = Some (sqrt a).
Proof. intro H. apply some_dom. now apply Rleb_true. Qed.

Lemma erf_coeff_val : erf_coeff = Some (2 / sqrt PI).
Proof.
  unfold erf_coeff, g_erf_coeff, lit. change (@nsqrt FN) with std_sqrt. cbn [nofZ FN c_atan2 std_cmath std_atan2 fp2]. unfold R_atan2.
  destruct (Rlt_dec 0 (IZR (-1))) as [H|_]; [exfalso; apply (Rlt_irrefl 0); lra|].
  destruct (Rlt_dec (IZR (-1)) 0) as [_|H]; [|exfalso; apply H; lra].
  destruct (Rlt_dec 0 0) as [H|_]; [exfalso; lra|].
  replace (0 / -1) with 0 by field. rewrite atan_0, Rplus_0_l.
  rewrite std_sqrt_pos by (left; apply PI_RGT_0). apply some_div.
  apply Rgt_not_eq, sqrt_lt_R0, PI_RGT_0.
Qed.

Ltac fpn := repeat first [rewrite some_mul|rewrite some_add|rewrite some_sub|rewrite some_opp].

Lemma C_abs : computes1 m_abs (fun x => x <> 0) Rabs.
Proof. m1 D_abs; [reflexivity|]. cbn. destruct (Rleb_spec 0 x0); reflexivity. Qed.
Lemma C_exp : computes1 m_exp (fun _ => True) exp.
Proof. m1 D_exp; reflexivity. Qed.
Lemma ln_pos_ge a : 1 < a -> ln a <> 0.
Proof. intro H. apply Rgt_not_eq. now apply ln_gt1. Qed.
Lemma C_exp2 : computes1 m_exp2 (fun _ => True) (Rpower 2).
Proof. m1 D_exp2; [reflexivity|]. rewrite std_log_pos by lra. reflexivity. Qed.
Lemma C_expm1 : computes1 m_expm1 (fun _ => True) (fun x => exp x - 1).
Proof. m1 D_expm1; reflexivity. Qed.
Lemma C_log : computes1 m_log (fun x => 0 < x) ln.
Proof. m1 D_ln; [now apply std_log_pos|]. rewrite some_div by lra. f_equal. field. lra. Qed.
Lemma C_log10 : computes1 m_log10 (fun x => 0 < x) (fun x => ln x / ln 10).
Proof.
  m1 (D_logb 10 ltac:(lra)); [etransitivity; [apply some_dom; now apply Rltb_true|reflexivity]|].
  assert (K := ln_pos_ge 10 ltac:(lra)). rewrite std_log_pos by lra. fpn.
  rewrite some_div by (apply Rmult_integral_contrapositive_currified; lra). f_equal. field. lra.
Qed.
Lemma C_log2 : computes1 m_log2 (fun x => 0 < x) (fun x => ln x / ln 2).
Proof.
  m1 (D_logb 2 ltac:(lra)); [etransitivity; [apply some_dom; now apply Rltb_true|reflexivity]|].
  assert (K := ln_pos_ge 2 ltac:(lra)). rewrite std_log_pos by lra. fpn.
  rewrite some_div by (apply Rmult_integral_contrapositive_currified; lra). f_equal. field. lra.
Qed.
Lemma C_log1p : computes1 m_log1p (fun x => -1 < x) (fun x => ln (1 + x)).
Proof.
  m1 D_log1p; [etransitivity; [apply some_dom; now apply Rltb_true|reflexivity]|]. fpn. rewrite some_div by lra. f_equal. field. lra.
Qed.
Lemma C_sqrt : computes1 m_sqrt (fun x => 0 < x) sqrt.
Proof.
  m1 D_sqrt; rewrite std_sqrt_pos by lra; [reflexivity|]. assert (K := sqrt_lt_R0 _ H). fpn.
  rewrite some_div by lra. f_equal. field. lra.
Qed.
Lemma C_sin : computes1 m_sin (fun _ => True) sin.
Proof. m1 D_sin; reflexivity. Qed.
Lemma C_cos : computes1 m_cos (fun _ => True) cos.
Proof. m1 D_cos; reflexivity. Qed.
Lemma std_tan_dom x : cos x <> 0 -> std_tan (Some x) = Some (tan x).
Proof. intro H. apply some_dom. now destruct (Reqb_spec (cos x) 0). Qed.
Lemma C_tan : computes1 m_tan (fun x => cos x <> 0) tan.
Proof. m1 D_tan; rewrite std_tan_dom by assumption; reflexivity. Qed.
Lemma C_asin : computes1 m_asin (fun x => -1 < x < 1) asin.
Proof.
  m1 D_asin.
  - apply some_dom. apply andb_true_intro; split; apply Rleb_true; lra.
  - assert (K := one_minus_sq x0 H). assert (Q := sqrt_lt_R0 _ K). fpn. rewrite std_sqrt_pos by lra.
    rewrite some_div by lra. f_equal. field. lra.
Qed.
Lemma C_acos : computes1 m_acos (fun x => -1 < x < 1) acos.
Proof.
  m1 D_acos.
  - apply some_dom. apply andb_true_intro; split; apply Rleb_true; lra.
  - assert (K := one_minus_sq x0 H). assert (Q := sqrt_lt_R0 _ K). fpn. rewrite std_sqrt_pos by lra.
    rewrite some_div by lra. f_equal. field. lra.
Qed.
Lemma C_atan : computes1 m_atan (fun _ => True) atan.
Proof.
  m1 D_atan; [reflexivity|]. assert (K := sq1_pos x0). fpn. rewrite some_div by lra. f_equal. field. lra.
Qed.
Lemma C_sinh : computes1 m_sinh (fun _ => True) sinh.
Proof. m1 D_sinh; reflexivity. Qed.
Lemma C_cosh : computes1 m_cosh (fun _ => True) cosh.
Proof. m1 D_cosh; reflexivity. Qed.
Lemma C_tanh : computes1 m_tanh (fun _ => True) tanh.
Proof. m1 D_tanh; reflexivity. Qed.
Lemma C_asinh : computes1 m_asinh (fun _ => True) R_asinh.
Proof.
  m1 D_asinh; [reflexivity|]. assert (K := sq1_pos x0). fpn. rewrite std_sqrt_pos by lra.
  assert (Q : 0 < sqrt (x0 * x0 + 1)) by (apply sqrt_lt_R0; lra).
  rewrite some_div by lra. f_equal. field. lra.
Qed.
Lemma C_acosh : computes1 m_acosh (fun x => 1 < x) R_acosh.
Proof.
  m1 D_acosh; [apply some_dom; apply Rleb_true; lra|].
  assert (K : 0 < x0 * x0 - 1) by nra. assert (Q := sqrt_lt_R0 _ K). fpn. rewrite std_sqrt_pos by lra.
  rewrite some_div by lra. f_equal. field. lra.
Qed.
Lemma C_atanh : computes1 m_atanh (fun x => -1 < x < 1) R_atanh.
Proof.
  m1 D_atanh.
  - apply some_dom. apply andb_true_intro; split; apply Rltb_true; lra.
  - assert (K := one_minus_sq x0 H). fpn. rewrite some_div by lra. f_equal. field. lra.
Qed.
Lemma C_erf : computes1 m_erf (fun _ => True) R_erf.
Proof.
  m1 D_erf; [reflexivity|]. rewrite erf_coeff_val. cbn. do 3 f_equal. ring.
Qed.
Lemma C_erfc : computes1 m_erfc (fun _ => True) (fun x => 1 - R_erf x).
Proof.
  m1 D_erfc; [reflexivity|]. rewrite erf_coeff_val. cbn. f_equal.
  replace (- x0 * x0) with (- (x0 * x0)) by ring. ring.
Qed.

Lemma Rpower_m23 x : 0 < x -> Rpower x (- 2 / 3) = / (Rpower x (/ 3) * Rpower x (/ 3)).
Proof.
  intro H. rewrite <- Rpower_plus, <- Rpower_Ropp. f_equal. field.
Qed.
Lemma C_cbrt : computes1 m_cbrt (fun x => 0 < x) R_cbrt.
Proof.
  eapply (computes1_intro _ _ _ (fun x => / (3 * (R_cbrt x * R_cbrt x)))).
  { intros x H. apply is_derive_cbrt. lra. }
  intros x H. unfold m_cbrt, g_cbrt. cbn [c_pow c_cbrt c_log c_atan2 std_cmath]. change (u_n (lift x)) with (Some (u_n x) : FN).
  apply std1; [reflexivity|]. generalize dependent (u_n x). intros x0 H. unfold lit; cbn [nofZ FN]. fpn.
  rewrite some_div by lra. unfold std_pow. rewrite (proj2 (Rltb_true 0 x0)) by exact H.
  rewrite some_div by lra. f_equal. rewrite Rpower_m23, cbrt_pos by exact H.
  assert (Q : 0 < Rpower x0 (/ 3)) by apply exp_pos. field. lra.
Qed.

(** ** functions of two variables *)

Lemma std2 x' y' (m m' dx dx' dy dy' : FN) : m = m' -> dx = dx' -> dy = dy' ->
  u_binary (N := FN) x' y' m dx dy = u_binary (N := FN) x' y' m' dx' dy'.
Proof. now intros -> -> ->. Qed.
Ltac m2 D :=
  eapply computes2_intro; [exact (proj1 (proj2 D))|]; intros x y H; cbn beta in *;
  match goal with |- ?m (lift x) (lift y) = _ => unfold m end; std_instance; cbv zeta;
  change (u_n (lift x)) with (Some (u_n x) : FN); change (u_n (lift y)) with (Some (u_n y) : FN);
  apply std2; generalize dependent (u_n x); intros x0; generalize dependent (u_n y); intros y0 H;
  unfold lit; cbn [nofZ FN].
Lemma C_fmod : computes2 m_fmod fmod_dom R_fmod.
Proof.
  m2 D2_fmod; destruct H as [Hy H].
  - cbn. destruct (Req_EM_T y0 0); [contradiction|reflexivity].
  - reflexivity.
  - rewrite some_div by assumption. reflexivity.
Qed.
Lemma C_remainder : computes2 m_remainder remainder_dom R_remainder.
Proof.
  m2 D2_remainder; destruct H as [Hy H].
  - cbn. destruct (Req_EM_T y0 0); [contradiction|reflexivity].
  - reflexivity.
  - rewrite some_div by assumption. cbn. do 3 f_equal. now apply nearestA_E.
Qed.
Lemma C_fmax : computes2 m_fmax (fun x y => x <> y) Rmax.
Proof.
  m2 D2_fmax.
  - reflexivity.
  - cbn. destruct (Rltb_spec x0 y0); destruct (Reqb_spec (Rmax x0 y0) x0) as [E|E]; try reflexivity; exfalso.
    + rewrite Rmax_right in E by lra. lra.
    + rewrite Rmax_left in E by lra. lra.
  - cbn. destruct (Rltb_spec x0 y0); destruct (Reqb_spec (Rmax x0 y0) x0) as [E|E]; try reflexivity; exfalso.
    + rewrite Rmax_right in E by lra. lra.
    + rewrite Rmax_left in E by lra. lra.
Qed.
Lemma C_fmin : computes2 m_fmin (fun x y => x <> y) Rmin.
Proof.
  m2 D2_fmin.
  - reflexivity.
  - cbn. destruct (Rltb_spec x0 y0); destruct (Reqb_spec (Rmin x0 y0) x0) as [E|E]; try reflexivity; exfalso.
    + rewrite Rmin_left in E by lra. lra.
    + rewrite Rmin_right in E by lra. lra.
  - cbn. destruct (Rltb_spec x0 y0); destruct (Reqb_spec (Rmin x0 y0) x0) as [E|E]; try reflexivity; exfalso.
    + rewrite Rmin_left in E by lra. lra.
    + rewrite Rmin_right in E by lra. lra.
Qed.
Lemma std_pow_pos a b : 0 < a -> std_pow (Some a) (Some b) = Some (Rpower a b).
Proof. intro H. unfold std_pow. now rewrite (proj2 (Rltb_true 0 a) H). Qed.
Lemma C_pow : computes2 m_pow (fun x y => 0 < x) Rpower.
Proof.
  m2 D2_pow; rewrite std_pow_pos by assumption.
  - reflexivity.
  - fpn. rewrite some_div by lra. f_equal. field. lra.
  - rewrite std_log_pos by assumption. reflexivity.
Qed.
Lemma C_hypot : computes2 m_hypot (fun x y => x <> 0 \/ y <> 0) (fun x y => sqrt (x * x + y * y)).
Proof.
  m2 D2_hypot; cbn [std_hypot fp2].
  - reflexivity.
  - rewrite some_div by (apply Rgt_not_eq, sqrt_lt_R0, sumsq_pos, H). reflexivity.
  - rewrite some_div by (apply Rgt_not_eq, sqrt_lt_R0, sumsq_pos, H). reflexivity.
Qed.

Lemma C21_unary_derivatives_proof :
  computes1 m_abs (fun x => x <> 0) Rabs /\
  computes1 m_exp (fun _ => True) exp /\
  computes1 m_exp2 (fun _ => True) (fun x => Rpower 2 x) /\
  computes1 m_expm1 (fun _ => True) (fun x => exp x - 1) /\
  computes1 m_log (fun x => 0 < x) ln /\
  computes1 m_log10 (fun x => 0 < x) (fun x => ln x / ln 10) /\
  computes1 m_log2 (fun x => 0 < x) (fun x => ln x / ln 2) /\
  computes1 m_log1p (fun x => -1 < x) (fun x => ln (1 + x)) /\
  computes1 m_sqrt (fun x => 0 < x) sqrt /\
  computes1 m_sin (fun _ => True) sin /\
  computes1 m_cos (fun _ => True) cos /\
  computes1 m_tan (fun x => cos x <> 0) tan /\
  computes1 m_asin (fun x => -1 < x < 1) asin /\
  computes1 m_acos (fun x => -1 < x < 1) acos /\
  computes1 m_atan (fun _ => True) atan /\
  computes1 m_sinh (fun _ => True) sinh /\
  computes1 m_cosh (fun _ => True) cosh /\
  computes1 m_tanh (fun _ => True) tanh /\
  computes1 m_asinh (fun _ => True) (fun x => ln (x + sqrt (x * x + 1))) /\
  computes1 m_acosh (fun x => 1 < x) (fun x => ln (x + sqrt (x * x - 1))) /\
  computes1 m_atanh (fun x => -1 < x < 1) (fun x => ln ((1 + x) / (1 - x)) / 2) /\
  computes1 m_erf (fun _ => True) (fun x => 2 / sqrt PI * RInt (fun t => exp (- (t * t))) 0 x) /\
  computes1 m_erfc (fun _ => True) (fun x => 1 - 2 / sqrt PI * RInt (fun t => exp (- (t * t))) 0 x).
Proof.
  exact (conj C_abs (conj C_exp (conj C_exp2 (conj C_expm1 (conj C_log (conj C_log10 (conj C_log2
    (conj C_log1p (conj C_sqrt (conj C_sin (conj C_cos (conj C_tan (conj C_asin (conj C_acos
    (conj C_atan (conj C_sinh (conj C_cosh (conj C_tanh (conj C_asinh (conj C_acosh (conj C_atanh
    (conj C_erf C_erfc)))))))))))))))))))))).
Qed.

Lemma C21_cbrt_partial_proof : exists cbrt : R -> R, (forall x, cbrt x * cbrt x * cbrt x = x) /\
  computes1 m_cbrt (fun x => 0 < x) cbrt.
Proof. exists R_cbrt. split; [exact cbrt_cube|exact C_cbrt]. Qed.

(** three variables: two independent, one number *)
Lemma reach3 (a b c d e : R) : 0 <= b -> 0 <= d -> exists w, reachable w /\
  w_var w 0%nat = mkU 1 (b : RN) (a : RN) [] /\ w_var w 1%nat = mkU 2 (d : RN) (c : RN) [] /\
  w_var w 2%nat = mkU 0 (0 : RN) (e : RN) [].
Proof.
  intros Hb Hd.
  eexists. split.
  - exists [CNew 0%nat (a : RN) (b : RN); CNew 1%nat (c : RN) (d : RN); CConst 2%nat (e : RN)]. split.
    + split; [repeat constructor|]. split; [|apply max_new_Z; cbn; lia].
      cbn. repeat match goal with
      | |- context [Rlt_dec ?a ?b] => destruct (Rlt_dec a b); try (exfalso; lra) end; cbn; tauto.
    + cbn. destruct (Rltb_spec b 0); [exfalso; lra|]. cbn. destruct (Rltb_spec d 0); [exfalso; lra|]. cbn. reflexivity.
  - repeat split.
Qed.

Lemma C21_cbrt_negative_refuted_proof : exists w (cbrt : R -> R), reachable w /\
  (forall x, cbrt x * cbrt x * cbrt x = x) /\
  u_n (w_var w 0%nat) = -8 /\ u_s (w_var w 0%nat) = 1 /\
  is_derive cbrt (-8) (1 / 12) /\
  ~ all_numbers (m_cbrt (lift (w_var w 0%nat))).
Proof.
  destruct (reach3 (-8) 1 0 0 0) as (w & Hw & E0 & _ & _); [lra|lra|].
  exists w, R_cbrt. split; [exact Hw|]. split; [exact cbrt_cube|]. rewrite E0.
  split; [reflexivity|]. split; [cbn; apply Rabs_R1|].
  assert (C2 : R_cbrt (-8) = -2).
  { assert (K := cbrt_cube (-8)). set (q := R_cbrt (-8)) in *.
    assert ((q + 2) * (q * q - 2 * q + 4) = 0) by lra.
    apply Rmult_integral in H. destruct H as [H|H]; [lra|]. exfalso. nra. }
  split.
  - replace (1 / 12) with (/ (3 * (R_cbrt (-8) * R_cbrt (-8)))).
    + apply is_derive_cbrt. lra.
    + rewrite C2. field.
  - intros [x' E]. unfold m_cbrt, g_cbrt in E. cbn [c_pow c_cbrt c_log c_atan2 std_cmath] in E.
    assert (P : std_pow (u_n (lift (mkU 1 (1 : RN) (-8 : RN) []))) (ndiv (nopp (lit 2)) (lit 3)) = None).
    { change (u_n (lift (mkU 1 (1 : RN) (-8 : RN) []))) with (Some (-8) : FN). unfold lit. cbn [nofZ FN].
      rewrite some_opp, some_div by lra.
      unfold std_pow. destruct (Rltb_spec 0 (-8)); [lra|].
      assert (T0 : Ztrunc (- (2) / 3) = 0%Z).
      { rewrite Ztrunc_ceil by lra. apply Zceil_imp. cbn. lra. }
      rewrite T0. destruct (Req_EM_T (- (2) / 3) (IZR 0)); [lra|].
      destruct (Reqb_spec (-8) 0); [lra|]. reflexivity. }
    apply (f_equal usdev) in E. rewrite P in E. cbn in E. discriminate E.
Qed.

Lemma C22_binary_derivatives_proof :
  computes2 m_fmod (fun x y => y <> 0 /\ forall k, k <> 0%Z -> x / y <> IZR k)
    (fun x y => x - IZR (Ztrunc (x / y)) * y) /\
  computes2 m_remainder (fun x y => y <> 0 /\ forall k, x / y <> IZR k + / 2)
    (fun x y => x - IZR (ZnearestE (x / y)) * y) /\
  computes2 m_fmax (fun x y => x <> y) Rmax /\
  computes2 m_fmin (fun x y => x <> y) Rmin /\
  computes2 m_pow (fun x y => 0 < x) Rpower /\
  computes2 m_hypot (fun x y => x <> 0 \/ y <> 0) (fun x y => sqrt (x * x + y * y)).
Proof.
  exact (conj C_fmod (conj C_remainder (conj C_fmax (conj C_fmin (conj C_pow C_hypot))))).
Qed.

(** What UReal's atan2 computes: minus the derivatives. *)
Lemma C22_atan2_negated_derivatives_proof : forall w u v, reachable w ->
  let x := w_var w u in let y := w_var w v in u_n x <> 0 ->
  exists z dx dy, m_atan2 (lift x) (lift y) = Ret (lift z) /\
    differentiable_pt_lim R_atan2 (u_n x) (u_n y) dx dy /\
    u_n z = R_atan2 (u_n x) (u_n y) /\
    forall t, u_cov z (w_var w t) = - (dx * u_cov x (w_var w t) + dy * u_cov y (w_var w t)).
Proof.
  intros w u v Hw x y Hx. destruct (reachable_rep w Hw) as (last & g & B & H).
  set (mu := R_atan2 (u_n x) (u_n y)).
  set (dx := u_n y * / (u_n x * u_n x + u_n y * u_n y)).
  set (dy := - (u_n x * / (u_n x * u_n x + u_n y * u_n y))).
  destruct (rep_binary last x y (g u) (g v) mu (- dx) (- dy) mu (- dx) (- dy) (H u) (H v)) as (z & E & Rz); auto; [lia|].
  exists z, dx, dy. split; [|split; [|split]].
  - unfold m_atan2, g_atan2. cbn [c_pow c_cbrt c_log c_atan2 std_cmath]. change (u_n (lift x)) with (Some (u_n x) : FN). change (u_n (lift y)) with (Some (u_n y) : FN).
    assert (K : 0 < u_n x * u_n x + u_n y * u_n y) by (apply sumsq_pos; now left).
    rewrite some_div by exact Hx. unfold lit; cbn [nofZ FN]. fpn.
    assert (Q : (1 + u_n y / u_n x * (u_n y / u_n x)) * u_n x = (u_n x * u_n x + u_n y * u_n y) / u_n x)
      by (field; exact Hx).
    assert (K2 : (u_n x * u_n x + u_n y * u_n y) / u_n x <> 0).
    { unfold Rdiv. apply Rmult_integral_contrapositive_currified; [lra|now apply Rinv_neq_0_compat]. }
    rewrite Q, some_div by exact K2. fpn.
    etransitivity; [apply (std2 _ _ _ (Some mu : FN) _ (Some (- dx) : FN) _ (Some (- dy) : FN))|].
    + reflexivity.
    + f_equal. unfold dx. field. lra.
    + f_equal. unfold dy. field. lra.
    + rewrite lift_binary. exact (f_equal (omap lift) E).
  - apply (proj1 (proj2 D2_atan2)). now left.
  - exact (rep_mean _ _ _ Rz).
  - intro t. rewrite (rep_cov last _ _ _ _ Rz (H t)), (rep_cov last x _ _ _ (H u) (H t)), (rep_cov last y _ _ _ (H v) (H t)).
    rewrite lin_cov_binary. rg.
Qed.

Lemma lift_inj x y : lift x = lift y -> x = y.
Proof.
  destruct x as [i s m sg], y as [i' s' m' sg']. unfold lift. cbn. intros [= -> -> -> E]. f_equal.
  revert sg' E. induction sg as [|[k v] sg IH]; intros [|[k' v'] sg']; cbn; try discriminate; [reflexivity|].
  intros [= -> -> E]. f_equal. now apply IH.
Qed.

Lemma C22_atan2_refuted_proof : exists w, reachable w /\
  let x := w_var w 0%nat in let y := w_var w 1%nat in
  u_n x = 1 /\ u_n y = 1 /\ u_var x = 1 /\ u_cov y x = 0 /\
  differentiable_pt_lim R_atan2 1 1 (1 / 2) (- (1 / 2)) /\
  exists z, m_atan2 (lift x) (lift y) = Ret (lift z) /\ u_cov z x = - (1 / 2).
Proof.
  destruct (reach3 1 1 1 1 0) as (w & Hw & E0 & E1 & _); [lra|lra|].
  exists w. split; [exact Hw|]. cbv zeta.
  destruct (C22_atan2_negated_derivatives_proof w 0%nat 1%nat Hw) as (z & dx & dy & A & D & M & C).
  { rewrite E0. cbn. lra. }
  specialize (C 0%nat). rewrite E0, E1 in *. cbn in D.
  assert (D' := proj1 (proj2 D2_atan2) 1 1 (or_introl R1_neq_R0)).
  cbn beta in D'. replace (1 * / (1 * 1 + 1 * 1)) with (1 / 2) in D' by field.
  apply differentiable_pt_lim_unique in D. assert (U := differentiable_pt_lim_unique _ _ _ _ _ D').
  destruct D as [Dx Dy], U as [Ux Uy].
  repeat split; try reflexivity.
  - cbn. ring.
  - exact D'.
  - exists z. split; [exact A|]. rewrite C. cbn. rewrite <- Dx, Ux. ring.
Qed.

(** pow with a number as exponent *)

Lemma is_derive_powerRZ (k : Z) (a : R) : a <> 0 -> is_derive (fun t => powerRZ t k) a (powerRZ a k * IZR k / a).
Proof.
  intro H. destruct k as [|p|p]; cbn [powerRZ].
  - replace (1 * 0 / a) with 0 by (unfold Rdiv; ring). apply is_derive_Reals, derivable_pt_lim_const.
  - auto_derive; [auto|].
    destruct (Pos2Nat.is_succ p) as (n & En). rewrite En. cbn [Nat.pred pow].
    replace (IZR (Z.pos p)) with (INR (S n)).
    + field. exact H.
    + rewrite <- En, INR_IZR_INZ, positive_nat_Z. reflexivity.
  - assert (P : a ^ Pos.to_nat p <> 0) by now apply pow_nonzero.
    auto_derive; [exact P|].
    destruct (Pos2Nat.is_succ p) as (n & En). rewrite En in *. cbn [Nat.pred pow] in *.
    replace (IZR (Z.neg p)) with (- INR (S n)).
    + assert (a ^ n <> 0) by now apply pow_nonzero. field. auto.
    + rewrite <- En, INR_IZR_INZ, positive_nat_Z. rewrite <- opp_IZR. reflexivity.
Qed.

Lemma C22_pow_integer_exponent_proof : forall w u v k, reachable w ->
  let x := w_var w u in let y := w_var w v in u_n x < 0 -> y = u_const (IZR k) ->
  exists z d, m_pow (lift x) (lift y) = Ret (lift z) /\
    is_derive (fun t => powerRZ t k) (u_n x) d /\
    u_n z = powerRZ (u_n x) k /\
    (forall t, u_cov z (w_var w t) = d * u_cov x (w_var w t)) /\
    (forall t, reachable (w_set w t z)).
Proof.
  intros w u v k Hw x y Hx Hy. destruct (reachable_rep w Hw) as (last & g & B & H).
  set (mu := powerRZ (u_n x) k). set (d := mu * IZR k / u_n x).
  assert (Rc := rep_const last (IZR k)).
  destruct (rep_binary last x (u_const (IZR k)) (g u) _ mu d 0 mu d 0 (H u) Rc) as (z & E & Rz); auto; [lia|].
  exists z, d. split; [|split; [|split; [|split]]].
  - rewrite Hy. unfold m_pow, g_pow. cbn [c_pow c_cbrt c_log c_atan2 std_cmath]. change (u_n (lift x)) with (Some (u_n x) : FN).
    change (u_n (lift (u_const (IZR k)))) with (Some (IZR k) : FN).
    assert (P : std_pow (Some (u_n x)) (Some (IZR k)) = Some mu).
    { unfold std_pow. destruct (Rltb_spec 0 (u_n x)); [lra|]. rewrite Ztrunc_IZR.
      destruct (Req_EM_T (IZR k) (IZR k)); [|congruence].
      destruct (Reqb_spec (u_n x) 0); [lra|]. reflexivity. }
    rewrite P. fpn. rewrite some_div by lra. fold d.
    etransitivity; [|exact (f_equal (omap lift) E)]. rewrite <- lift_binary.
    (* the derivative with respect to a number is not used *)
    unfold u_binary. change (uid (lift (u_const (IZR k)))) with 0%Z. cbn [Z.ltb Z.compare Z.leb andb].
    rewrite !andb_false_r. reflexivity.
  - apply is_derive_powerRZ. lra.
  - exact (rep_mean _ _ _ Rz).
  - intro t. rewrite (rep_cov last _ _ _ _ Rz (H t)), (rep_cov last x _ _ _ (H u) (H t)).
    rewrite lin_cov_binary. unfold lin_cov at 2, sum_ids. rewrite rsum_zero; [rg|]. intros; cbn; ring.
  - intro t. apply (reachable_binary w u v t mu d 0 z Hw). fold x y. now rewrite Hy.
Qed.

(** x^2 at mean zero: differentiable with derivative 0, but the result is not a number. *)
Lemma C22_pow_zero_base_refuted_proof : exists w, reachable w /\
  let x := w_var w 0%nat in let y := w_var w 2%nat in
  u_n x = 0 /\ u_s x = 1 /\ y = u_const (2 : RN) /\
  is_derive (fun t => powerRZ t 2) 0 0 /\
  exists z, m_pow (lift x) (lift y) = Ret z /\ ~ all_numbers z.
Proof.
  destruct (reach3 0 1 0 0 2) as (w & Hw & E0 & _ & E2); [lra|lra|].
  exists w. split; [exact Hw|]. cbv zeta. rewrite E0, E2.
  split; [reflexivity|]. split; [cbn; apply Rabs_R1|]. split; [reflexivity|]. split.
  - cbn. auto_derive; [auto|]. ring.
  - unfold m_pow, g_pow. cbn [c_pow c_cbrt c_log c_atan2 std_cmath]. change (u_n (lift (mkU 1 (1 : RN) (0 : RN) []))) with (Some 0 : FN).
    change (u_n (lift (mkU 0 (0 : RN) (2 : RN) []))) with (Some 2 : FN).
    assert (D : forall a : FN, ndiv a (Some 0 : FN) = None).
    { intros [a|]; [|reflexivity]. cbn. destruct (Req_EM_T 0 0); [reflexivity|congruence]. }
    rewrite D. eexists. split; [reflexivity|]. intros [x' E].
    apply (f_equal (@usigma FN)) in E. cbn in E. destruct (usigma x') as [|[k v] l]; discriminate E.
Qed.
