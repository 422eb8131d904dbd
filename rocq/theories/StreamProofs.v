(** * StreamProofs: the output operators *)

From Coq Require Import List ZArith Bool Reals Ascii String Lra Lia.
From Verif Require Import Base Num Map UReal World HessGrad Moments UReal2 World2 SpecObs SpecU2Run URealProofs MomStats
  Io SpecIo IoProofs IoProofs2 IoProofs3 IoProofs4 IoProofs5 Stream SpecStream Demo.
Import ListNotations.
Local Open Scope R_scope.

Lemma sep_ok : default_sep = plus_minus.
Proof. reflexivity. Qed.

Lemma format_shows mu s : 0 <= s -> exists t, format (Fin mu) (Fin s) default_errdig default_sep = Ret t /\ shows t mu s.
Proof.
  intro Hs. unfold default_errdig. rewrite sep_ok. destruct (Req_dec s 0) as [->|N].
  - destruct (C51_no_uncertainty_proof (3 / 2) plus_minus ltac:(lra)) as (A & B & _).
    destruct (Req_dec mu 0) as [->|M].
    + eexists. split; [exact B|]. split; [lra|]. split; [intros; lra|reflexivity].
    + destruct (A mu M) as (T & S6 & E). eexists. split; [exact E|]. split; [lra|]. split; [|lra]. intros _ _. exists T. auto.
  - destruct (format_text mu s (3 / 2) plus_minus ltac:(lra) ltac:(split; [lra|left; lra])) as (t & M & SS & e & vM & pM & vS & pS & n & E & A).
    exists t. split; [exact E|]. split; [|split; intros; contradiction]. intros _. exists M, SS, e, vM, pM, vS, pS, n. cbv zeta in *. tauto.
Qed.

Lemma insert_received os t : os_good os = true ->
  exists out, padded (is_left (os_adjust os)) (os_fill os) (os_width os) t out /\ received os (insert_string os t) out.
Proof.
  intro Gd. unfold insert_string. rewrite Gd. cbv zeta.
  exists (match os_adjust os with AdjLeft => t ++ repeat (os_fill os) (Z.to_nat (os_width os) - List.length t)
          | _ => repeat (os_fill os) (Z.to_nat (os_width os) - List.length t) ++ t end). split.
  - exists (repeat (os_fill os) (Z.to_nat (os_width os) - List.length t)). split.
    { apply List.Forall_forall. intros c Hc. symmetry. exact (repeat_spec _ _ _ Hc). }
    split; [now destruct (os_adjust os)|].
    destruct (os_adjust os); rewrite app_length, repeat_length; lia.
  - unfold received, set_buf. cbn. auto 10.
Qed.
Lemma insert_bad os t : os_good os = false -> insert_string os t = os.
Proof. intro B. unfold insert_string. now rewrite B. Qed.

Lemma C89_ureal_proof : forall w, reachable w -> forall v, let x := w_var w v in
  exists t, shows t (u_n x) (u_s x) /\
  forall os, exists os', print_ureal os x = Ret os' /\
    (os_good os = true -> exists out,
       padded (is_left (os_adjust os)) (os_fill os) (os_width os) t out /\ received os os' out) /\
    (os_good os = false -> os' = os).
Proof.
  intros w Rw v x. destruct (C07_var_s_corr_proof w Rw v v) as (Ps & _). fold x in Ps.
  destruct (format_shows (u_n x) (u_s x) Ps) as (t & E & Sh). exists t. split; [exact Sh|].
  intro os. exists (insert_string os t). unfold print_ureal. rewrite E. split; [reflexivity|].
  split; [apply insert_received|apply insert_bad].
Qed.

Lemma print_known : forall p (x : ureal2 RN) n m2, u2_n p x = Ret n -> u2_var x = Ret m2 ->
  exists t, (0 <= m2 -> u2_s x = Ret (sqrt m2) /\ shows t n (sqrt m2)) /\
    (m2 < 0 -> exists M, (n = 0 -> M = lit "0") /\ (n <> 0 -> six_digits M n) /\ t = M ++ plus_minus ++ lit "nan") /\
  forall os, exists os', print_ureal2 p os x = Ret os' /\
    (os_good os = true -> exists out,
       padded (is_left (os_adjust os)) (os_fill os) (os_width os) t out /\ received os os' out) /\
    (os_good os = false -> os' = os).
Proof.
  intros p x n m2 En Ev. unfold u2_var in Ev.
  assert (Es : u2_s x = Ret (sqrt m2)) by (unfold u2_s; rewrite Ev; reflexivity).
  assert (K : forall xs, sdev_ureal2 x = Ret xs -> forall t, format (Fin n) xs default_errdig default_sep = Ret t ->
    forall os, exists os', print_ureal2 p os x = Ret os' /\
    (os_good os = true -> exists out,
       padded (is_left (os_adjust os)) (os_fill os) (os_width os) t out /\ received os os' out) /\
    (os_good os = false -> os' = os)).
  { intros xs Exs t Et os. exists (insert_string os t). unfold print_ureal2. rewrite En. cbn [bind]. rewrite Exs. cbn [bind].
    rewrite Et. split; [reflexivity|]. split; [apply insert_received|apply insert_bad]. }
  assert (Ex : sdev_ureal2 x = Ret (if Rltb m2 0 then NotNum else Fin (sqrt m2))) by (unfold sdev_ureal2; rewrite Ev; cbn [bind]; rewrite Es; reflexivity).
  destruct (Rltb_spec m2 0) as [L|L].
  - destruct (C51_no_uncertainty_proof (3 / 2) plus_minus ltac:(lra)) as (_ & _ & A).
    destruct (A (Fin n) NotNum ltac:(auto 10)) as (M & D & E & F). exists (M ++ plus_minus ++ D).
    split; [lra|]. split.
    + intros _. exists M. destruct (F (Fin n) M ltac:(auto)) as [F1 F2]. specialize (F NotNum D ltac:(auto)). cbn in F. subst D. auto.
    + apply (K _ Ex). exact E.
  - destruct (format_shows n (sqrt m2) (sqrt_pos m2)) as (t & E & Sh). exists t. split; [auto|]. split; [lra|]. exact (K _ Ex _ E).
Qed.

Lemma C89_ureal2_proof : forall eig (w : world2 RN), reachable2 eig w -> forall p v, let x := w2_var w v in
  exists n m2 t, u2_n p x = Ret n /\ u2_var x = Ret m2 /\
    (0 <= m2 -> u2_s x = Ret (sqrt m2) /\ shows t n (sqrt m2)) /\
    (m2 < 0 -> exists M, (n = 0 -> M = lit "0") /\ (n <> 0 -> six_digits M n) /\ t = M ++ plus_minus ++ lit "nan") /\
  forall os, exists os', print_ureal2 p os x = Ret os' /\
    (os_good os = true -> exists out,
       padded (is_left (os_adjust os)) (os_fill os) (os_width os) t out /\ received os os' out) /\
    (os_good os = false -> os' = os).
Proof.
  intros eig w Rw p v x. destruct (C29_covariance_symmetric_proof eig w Rw v v) as (_ & _ & (m2 & E2 & _) & _). fold x in E2.
  destruct (print_known p x _ m2 eq_refl E2) as (t & T). eexists _, m2, t. split; [reflexivity|]. split; [exact E2|exact T].
Qed.

(** ** Chains *)

Definition no_width (i : item) : Prop := match i with IWidth _ => False | _ => True end.
Lemma insert_plain os t : os_good os = true -> (os_width os <= 0)%Z ->
  insert_string os t = set_buf os (os_buf os ++ t) 0.
Proof.
  intros Gd W. unfold insert_string. rewrite Gd. replace (Z.to_nat (os_width os)) with 0%nat by lia. cbn.
  rewrite app_nil_r. now destruct (os_adjust os).
Qed.
Lemma put_piece w os i : reachable w -> os_good os = true -> (os_width os <= 0)%Z -> no_width i ->
  exists os' t, put w os i = Ret os' /\ piece w i t /\ os_buf os' = os_buf os ++ t /\ os_good os' = true /\ (os_width os' <= 0)%Z.
Proof.
  intros Rw Gd W Nw. destruct i as [v|t|wd|c|a|p|f|s]; cbn [no_width] in Nw; try contradiction.
  - destruct (C07_var_s_corr_proof w Rw v v) as (Ps & _).
    destruct (format_shows (u_n (w_var w v)) (u_s (w_var w v)) Ps) as (t & E & Sh).
    exists (set_buf os (os_buf os ++ t) 0), t. split.
    + destruct os. cbn [put]. unfold print_ureal. rewrite E. cbn [bind]. rewrite insert_plain by assumption. reflexivity.
    + split; [exact Sh|]. destruct os; cbn in *. auto with zarith.
  - exists (set_buf os (os_buf os ++ t) 0), t. split; [destruct os; cbn [put]; now rewrite insert_plain|].
    split; [reflexivity|]. destruct os; cbn in *. auto with zarith.
  - destruct os; cbn in *. eexists _, []. rewrite app_nil_r. repeat split; auto.
  - destruct os; cbn in *. eexists _, []. rewrite app_nil_r. repeat split; auto.
  - destruct os; cbn in *. eexists _, []. rewrite app_nil_r. repeat split; auto.
  - destruct os; cbn in *. eexists _, []. rewrite app_nil_r. repeat split; auto.
  - destruct os; cbn in *. eexists _, []. rewrite app_nil_r. repeat split; auto.
Qed.
Lemma chain_pieces w is : reachable w -> List.Forall no_width is -> forall os, os_good os = true -> (os_width os <= 0)%Z ->
  exists os' ts, chain w os is = Ret os' /\ List.Forall2 (piece w) is ts /\ os_buf os' = os_buf os ++ List.concat ts /\
    os_good os' = true /\ (os_width os' <= 0)%Z.
Proof.
  intros Rw. induction is as [|i is IH]; intros Nw os Gd W.
  - exists os, []. cbn. rewrite app_nil_r. auto.
  - inversion Nw as [|? ? N1 N2]; subst. destruct (put_piece w os i Rw Gd W N1) as (os1 & t & E1 & P1 & B1 & G1 & W1).
    destruct (IH N2 os1 G1 W1) as (os2 & ts & E2 & P2 & B2 & G2 & W2). exists os2, (t :: ts).
    cbn [chain]. rewrite E1. cbn [bind]. split; [exact E2|]. split; [constructor; assumption|].
    split; [rewrite B2, B1; cbn; now rewrite app_assoc|]. auto.
Qed.
Lemma chain_app w a : forall os b, chain w os (a ++ b) = (o <- chain w os a;; chain w o b).
Proof.
  induction a as [|i a IH]; intros os b; [reflexivity|]. cbn [app chain]. destruct (put w os i); cbn [bind]; auto.
Qed.

Lemma C89_chain_proof : forall w, reachable w -> forall os is, os_good os = true -> (os_width os <= 0)%Z ->
  (forall n, ~ In (IWidth n) is) ->
  exists os' ts, chain w os is = Ret os' /\ List.Forall2 (piece w) is ts /\ os_buf os' = os_buf os ++ List.concat ts.
Proof.
  intros w Rw os is Gd W Nw. assert (F : List.Forall no_width is).
  { apply List.Forall_forall. intros [ ] Hi; cbn; auto. exact (Nw _ Hi). }
  destruct (chain_pieces w is Rw F os Gd W) as (os' & ts & A & B & C & _). eauto.
Qed.

Lemma C89_width_used_once_proof : forall w, reachable w -> forall os n v is, os_good os = true ->
  (forall n, ~ In (IWidth n) is) ->
  exists os' t out ts, chain w os (IWidth n :: IVar v :: is) = Ret os' /\
    shows t (u_n (w_var w v)) (u_s (w_var w v)) /\
    padded (is_left (os_adjust os)) (os_fill os) n t out /\
    List.Forall2 (piece w) is ts /\ os_buf os' = os_buf os ++ out ++ List.concat ts.
Proof.
  intros w Rw os n v is Gd Nw. assert (F : List.Forall no_width is).
  { apply List.Forall_forall. intros [ ] Hi; cbn; auto. exact (Nw _ Hi). }
  destruct (C89_ureal_proof w Rw v) as (t & Sh & P). destruct os as [b g wd c a p f s]. cbn in Gd. subst g.
  destruct (P (mkOs b true n c a p f s)) as (os1 & E1 & P1 & _). destruct (P1 eq_refl) as (out & Pd & Rc). clear P1 P.
  destruct Rc as (B1 & W1 & G1 & _). cbn in B1, G1.
  destruct (chain_pieces w is Rw F os1 G1 ltac:(lia)) as (os2 & ts & E2 & P2 & B2 & _).
  exists os2, t, out, ts. cbn [chain put bind]. rewrite E1. cbn [bind]. split; [exact E2|]. split; [exact Sh|]. split; [exact Pd|].
  split; [exact P2|]. cbn. rewrite B2, B1. now rewrite <- app_assoc.
Qed.

(** ** The same text *)

Lemma same_rounded x y k v : rounded x k v -> rounded y k v -> Rabs (Rabs x - Rabs y) < ten k.
Proof.
  intros (z & E & H) (z' & E' & H'). assert (P := ten_pos k).
  assert (IZR z = IZR z') as Q by (apply (Rmult_eq_reg_r (ten k)); [congruence|lra]). rewrite <- Q in H'.
  assert (A : forall a, a = a / ten k * ten k) by (intro; field; lra). rewrite (A (Rabs x)), (A (Rabs y)).
  generalize dependent (Rabs x / ten k). intros a Ha. generalize dependent (Rabs y / ten k). intros b Hb.
  rewrite <- Rmult_minus_distr_r, Rabs_mult, (Rabs_pos_eq (ten k)) by lra.
  rewrite <- (Rmult_1_l (ten k)) at 2. apply Rmult_lt_compat_r; [exact P|]. apply Rabs_def1; lra.
Qed.
Lemma shown_unit s k vS e pS n : 0 < s -> k = (e - Z.of_nat pS)%Z -> rounded s k (vS * ten e) -> digits vS pS n ->
  (1 <= n)%Z -> ten k <= 2 * s.
Proof.
  intros Hs -> (z & E & H) Dg Hn. assert (P := ten_pos (e - Z.of_nat pS)). destruct Dg as [D _].
  assert (1 <= IZR z).
  { apply (Rmult_le_reg_r (ten (e - Z.of_nat pS))); [exact P|]. rewrite <- E, ten_sub, ten_nat, Rmult_1_l.
    assert (Q : 0 < 10 ^ pS) by (apply pow_lt; lra). assert (T : 0 < ten e) by apply ten_pos.
    apply (Rmult_le_reg_r (10 ^ pS)); [exact Q|]. replace (ten e / 10 ^ pS * 10 ^ pS) with (1 * ten e) by (field; lra).
    replace (vS * ten e * 10 ^ pS) with (vS * 10 ^ pS * ten e) by ring. apply Rmult_le_compat_r; [lra|].
    eapply Rle_trans; [|exact D]. rewrite <- ten_0. apply ten_le. lia. }
  rewrite Rabs_pos_eq in H by lra. assert (K : / 2 <= s / ten (e - Z.of_nat pS)) by lra.
  apply (Rmult_le_compat_r (ten (e - Z.of_nat pS))) in K; [|lra]. unfold Rdiv in K. rewrite Rmult_assoc, Rinv_l in K by lra. lra.
Qed.
Lemma wanted_one s n : wanted_digits s (3 / 2) n -> (1 <= n)%Z.
Proof.
  intros (i & f & e & (E & F) & _ & A & B). assert (0 < i)%Z.
  { apply lt_IZR. lra. }
  destruct (Rlt_dec (Rabs s / ten e) (Rpower 10 f)) as [L|L].
  - rewrite A by (left; exact L). lia.
  - destruct (Rle_dec (ten (e + 1)) (Rabs s + ten (e - i + 1) / 2)) as [M|M].
    + destruct (Rlt_dec 0 f).
      * rewrite A by (right; split; assumption). lia.
      * rewrite B by (intros [Q|[Q _]]; lra). lia.
    + rewrite B by (intros [Q|[_ Q]]; lra). lia.
Qed.

Definition plain_stream (os : ostream) : Prop := os_good os = true /\ (os_width os <= 0)%Z.
Lemma printed w v os os' : reachable w -> plain_stream os -> print_ureal os (w_var w v) = Ret os' ->
  exists t, shows t (u_n (w_var w v)) (u_s (w_var w v)) /\ os_buf os' = os_buf os ++ t.
Proof.
  intros Rw [Gd W] E. destruct (C07_var_s_corr_proof w Rw v v) as (Ps & _).
  destruct (format_shows (u_n (w_var w v)) (u_s (w_var w v)) Ps) as (t & Et & Sh). exists t. split; [exact Sh|].
  unfold print_ureal in E. rewrite Et in E. cbn [bind] in E. rewrite insert_plain in E by assumption. injection E as <-. reflexivity.
Qed.

Lemma C89_same_text_partial_proof : forall w, reachable w -> forall u v os os1 os2,
  os_good os = true -> (os_width os <= 0)%Z ->
  let x := w_var w u in let y := w_var w v in u_s x <> 0 -> u_s y <> 0 ->
  print_ureal os x = Ret os1 -> print_ureal os y = Ret os2 -> os_buf os1 = os_buf os2 ->
  exists k, ten k <= 2 * u_s x /\ Rabs (u_s x - u_s y) < ten k /\
    (k <> 0%Z \/ no_carry (u_n x) k /\ no_carry (u_n y) k -> Rabs (u_n x - u_n y) < ten k).
Proof.
  intros w Rw u v os os1 os2 Gd W x y Nx Ny E1 E2 E.
  destruct (printed w u os os1 Rw (conj Gd W) E1) as (t1 & S1 & B1).
  destruct (printed w v os os2 Rw (conj Gd W) E2) as (t2 & S2 & B2). fold x in S1. fold y in S2.
  rewrite B1, B2 in E. apply app_inv_head in E. subst t2.
  destruct (C07_var_s_corr_proof w Rw u u) as (Px & _). destruct (C07_var_s_corr_proof w Rw v v) as (Py & _). fold x in Px. fold y in Py.
  destruct S1 as (S1 & _). destruct (S1 Nx) as (M & SS & e & vM & pM & vS & pS & n & L & NM & NS & Rs & Wd & Dg & Rm).
  destruct S2 as (S2 & _). destruct (S2 Ny) as (M' & SS' & e' & vM' & pM' & vS' & pS' & n' & L' & NM' & NS' & Rs' & Wd' & Dg' & Rm'). cbv zeta in *.
  destruct (C41_text_unambiguous_proof t1 plus_minus " "%char (tl plus_minus) eq_refl ltac:(unfold is_digit; cbn; lia) ltac:(discriminate) _ _ _ _ _ _ _ _ _ _ _ _ _ _ _ _ L NM NS L' NM' NS')
    as (Sg & <- & <- & <- & <- & <- & <- & <-).
  exists (e - Z.of_nat pS)%Z. split; [apply (shown_unit _ _ vS e pS n); auto; [lra|now apply (wanted_one (u_s x))]|].
  split.
  - assert (K := same_rounded _ _ _ _ Rs Rs'). rewrite !(Rabs_pos_eq (u_s _)) in K by assumption. exact K.
  - intro C. assert (K : Rabs (Rabs (u_n x) - Rabs (u_n y)) < ten (e - Z.of_nat pS)).
    { apply (same_rounded _ _ _ (vM * ten e)); [apply Rm|apply Rm']; tauto. }
    destruct (Rltb_spec (u_n x) 0) as [A|A], (Rltb_spec (u_n y) 0) as [A'|A']; try discriminate Sg.
    + rewrite (Rabs_left (u_n x)), (Rabs_left (u_n y)) in K by assumption.
      replace (- u_n x - - u_n y) with (- (u_n x - u_n y)) in K by ring. now rewrite Rabs_Ropp in K.
    + rewrite (Rabs_pos_eq (u_n x)), (Rabs_pos_eq (u_n y)) in K by lra. exact K.
Qed.

(** ** Two means that differ by eight units are printed alike *)

Lemma format_12 mu z : (IZR z - / 2 <= mu * 1 < IZR z + / 2) -> 1 <= mu < 10 -> (z = 1 \/ z = 10)%Z ->
  format (Fin mu) (Fin 12) default_errdig default_sep = Ret (lit "1" ++ plus_minus ++ lit "12").
Proof.
  intros Hz Hm Hz'. unfold default_errdig. rewrite sep_ok. assert (IF : int_frac (3/2) 1 (/2)) by (split; lra).
  assert (R3 : 3 < Rpower 10 (/2)) by (rewrite Rpower_sqrt by lra; replace 3 with (sqrt (3 * 3)) by (apply sqrt_square; lra); apply sqrt_lt_1; lra).
  assert (E : ndigits 12 (3/2) = (2%Z, 12)).
  { assert (D : decade 12 1) by dec. unfold ndigits. rewrite (decade_exponent _ _ D).
    destruct (naive_eq _ (3/2) _ _ _ D IF) as [A _]. rewrite A; clear A; [|abs; evt; lra].
    assert (Q : int_mantissa 12 (1 + 1) 1 * p10 1 = 120).
    { unfold int_mantissa. change p10 with ten. rewrite round_pos by (evt; lra). rewrite (rz_unique _ 12); [evt; lra|]. evt; abs; lra. }
    rewrite Q. destruct (Rltb_spec 12 120); [|lra]. assert (D2 : decade 120 2) by dec.
    destruct (naive_eq _ (3/2) _ _ _ D2 IF) as [A _]. rewrite A; [reflexivity|abs; evt; lra]. }
  unfold format. destruct (Rleb_spec (3 / 2) 1); [lra|]. rewrite iszero_false by lra. unfold format_finite. rewrite E.
  rewrite iszero_false by lra. rewrite (decade_exponent 12 1) by dec. rewrite (decade_exponent mu 0) by dec.
  mant 12%Z. cbn -[mantissa Rltb insert_dot]. destruct Hz' as [-> | ->].
  - mant 1%Z. cbn -[mantissa Rltb insert_dot]. destruct (Rltb_spec mu 0); [lra|]. reflexivity.
  - mant 10%Z. cbn -[mantissa Rltb insert_dot]. destruct (Rltb_spec mu 0); [lra|]. reflexivity.
Qed.
Definition alike : list (call RN) := [CNew 0%nat (96 / 10) 12; CNew 1%nat (12 / 10) 12].
Lemma alike_world : exists w, reachable w /\
  u_n (w_var w 0%nat) = 96 / 10 /\ u_s (w_var w 0%nat) = 12 /\ u_n (w_var w 1%nat) = 12 / 10 /\ u_s (w_var w 1%nat) = 12.
Proof.
  eexists. split.
  - exists alike. split.
    + split; [repeat constructor|]. split; [cbn; decide_signs; cbn; tauto|apply max_new_ge; cbn; lia].
    + unfold alike. cbn. destruct (Rltb_spec 12 0); [lra|]. reflexivity.
  - cbn. rewrite !Rabs_pos_eq by lra. auto.
Qed.
Definition cout : ostream := mkOs [] true 0 " "%char AdjNone 6 0 false.
Lemma C89_same_text_refuted_proof : exists w u v os os1 os2, reachable w /\ os_good os = true /\ os_width os = 0%Z /\
  print_ureal os (w_var w u) = Ret os1 /\ print_ureal os (w_var w v) = Ret os2 /\ os_buf os1 = os_buf os2 /\
  os_buf os1 = lit "1" ++ plus_minus ++ lit "12" /\
  u_s (w_var w u) = 12 /\ u_s (w_var w v) = 12 /\ u_n (w_var w u) - u_n (w_var w v) = 84 / 10.
Proof.
  destruct alike_world as (w & Rw & N0 & S0 & N1 & S1). exists w, 0%nat, 1%nat, cout. do 2 eexists.
  split; [exact Rw|]. split; [reflexivity|]. split; [reflexivity|]. unfold print_ureal. rewrite N0, S0, N1, S1.
  rewrite (format_12 (96 / 10) 10) by (lra || auto). rewrite (format_12 (12 / 10) 1) by (lra || auto). cbn [bind].
  split; [reflexivity|]. split; [reflexivity|]. split; [reflexivity|]. split; [reflexivity|]. split; [reflexivity|]. split; [reflexivity|]. lra.
Qed.

(** ** Characters *)

Definition one_byte (c : ascii) : Prop := continues c = false.
Lemma characters_app a b : characters (a ++ b) = (characters a + characters b)%Z.
Proof. unfold characters. rewrite filter_app, app_length. lia. Qed.
Lemma characters_bytes t : List.Forall one_byte t -> characters t = Z.of_nat (List.length t).
Proof.
  unfold characters. induction t as [|c t IH]; intro H; [reflexivity|]. inversion H as [|? ? A B]; subst. cbn.
  unfold one_byte in A. rewrite A. cbn [negb List.length]. specialize (IH B). lia.
Qed.
Lemma digit_byte c : is_digit c -> one_byte c.
Proof. unfold is_digit, one_byte, continues. intro H. replace (128 <=? nat_of_ascii c)%nat with false by (symmetry; apply Nat.leb_gt; lia). reflexivity. Qed.
Lemma numeral_bytes s v p : numeral s v p -> List.Forall one_byte s.
Proof.
  intro N. destruct (numeral_chars _ _ _ N) as (_ & C & _). eapply Forall_impl; [|exact C]. intros c [D| ->]; [now apply digit_byte|reflexivity].
Qed.
Lemma exponent_bytes x e : exponent_text x e -> List.Forall one_byte x.
Proof.
  intros (c & D & -> & _ & F & H). constructor; [destruct H as [(_ & -> & _)|(_ & -> & _)]; reflexivity|].
  eapply Forall_impl; [|exact F]. apply digit_byte.
Qed.
Lemma six_bytes M x : six_digits M x -> List.Forall one_byte M.
Proof.
  intros (N & e & v & p & [[_ ->]|(y & Y & ->)] & Nm & _); [exact (numeral_bytes _ _ _ Nm)|].
  repeat (apply Forall_app; split). exact (numeral_bytes _ _ _ Nm). repeat constructor. exact (exponent_bytes _ _ Y).
Qed.
Lemma split_bytes a b : List.Forall one_byte a -> List.Forall one_byte b ->
  characters (a ++ plus_minus ++ b) = (Z.of_nat (List.length (a ++ plus_minus ++ b)) - 1)%Z.
Proof.
  intros A B. rewrite !characters_app, !app_length, (characters_bytes a A), (characters_bytes b B).
  change (characters plus_minus) with 3%Z. change (List.length plus_minus) with 4%nat. lia.
Qed.
Lemma sign_bytes (b : bool) : List.Forall one_byte (if b then ["-"%char] else []).
Proof. destruct b; repeat constructor. Qed.
Lemma shows_characters t mu s : shows t mu s -> characters t = (Z.of_nat (List.length t) - 1)%Z.
Proof.
  intros (A & B & C). destruct (Req_dec s 0) as [S0|N].
  - destruct (Req_dec mu 0) as [M0|M0].
    + rewrite (C S0 M0). reflexivity.
    + destruct (B S0 M0) as (M & S6 & ->). apply split_bytes; [exact (six_bytes _ _ S6)|repeat constructor].
  - destruct (A N) as (M & SS & e & vM & pM & vS & pS & n & L & NM & NS & _).
    assert (FM := numeral_bytes _ _ _ NM). assert (FS := numeral_bytes _ _ _ NS). assert (Fg := sign_bytes (Rltb mu 0)).
    destruct L as [[_ ->]|(x & X & ->)].
    + rewrite (app_assoc _ M). apply split_bytes; [|exact FS]. apply Forall_app; auto.
    + rewrite (app_assoc _ M), (app_assoc ["("%char]). apply split_bytes.
      * apply Forall_app; split; [repeat constructor|]. apply Forall_app; auto.
      * apply Forall_app; split; [exact FS|]. apply Forall_app; split; [repeat constructor|exact (exponent_bytes _ _ X)].
Qed.
Lemma C89_characters_partial_proof : forall w, reachable w -> forall v os os', os_good os = true ->
  continues (os_fill os) = false -> print_ureal os (w_var w v) = Ret os' ->
  exists out, os_buf os' = os_buf os ++ out /\ characters out = (Z.of_nat (List.length out) - 1)%Z /\
    (os_width os <= Z.of_nat (List.length out))%Z /\
    ((os_width os <= characters out)%Z \/ characters out = (os_width os - 1)%Z).
Proof.
  intros w Rw v os os' Gd Fl E. destruct (C89_ureal_proof w Rw v) as (t & Sh & P).
  destruct (P os) as (o & E' & Q & _). rewrite E in E'. injection E' as <-. destruct (Q Gd) as (out & (p & Fp & Eo & Ln) & B & _).
  exists out. split; [exact B|]. assert (C := shows_characters _ _ _ Sh).
  assert (Cp : characters p = Z.of_nat (List.length p)).
  { apply characters_bytes. eapply Forall_impl; [|exact Fp]. intros c <-. exact Fl. }
  assert (Co : characters out = (Z.of_nat (List.length out) - 1)%Z).
  { subst out. destruct (is_left _); rewrite characters_app, app_length; lia. }
  split; [exact Co|]. lia.
Qed.
Lemma C89_characters_refuted_proof : exists w v os os', reachable w /\ os_good os = true /\ os_width os = 10%Z /\
  print_ureal os (w_var w v) = Ret os' /\
  os_buf os' = os_buf os ++ lit "   1" ++ plus_minus ++ lit "12" /\
  characters (lit "   1" ++ plus_minus ++ lit "12") = 9%Z.
Proof.
  destruct alike_world as (w & Rw & _ & _ & N1 & S1). exists w, 1%nat, (mkOs [] true 10 " "%char AdjNone 6 0 false). eexists.
  split; [exact Rw|]. split; [reflexivity|]. split; [reflexivity|]. unfold print_ureal. rewrite N1, S1.
  rewrite (format_12 (12 / 10) 1) by (lra || auto). cbn [bind]. split; [reflexivity|]. split; reflexivity.
Qed.
