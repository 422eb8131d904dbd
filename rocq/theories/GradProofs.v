(** * GradProofs: the value of grad for every variable (C15) *)

From Coq Require Import List ZArith Bool Reals Lra Lia.
From Verif Require Import Base Num Map UReal World Sums SpecLin SpecObs URealFacts URealR URealProofs URealProofs2 U2World U2Proofs SpecGrad.
Import ListNotations.
Local Open Scope R_scope.

Definition lonely (w : world RN) (L : nat -> bool) : Prop := forall v, (0 < uid (w_var w v))%Z <-> L v = true.

Lemma lonely_set w L v x b : lonely w L -> ((0 < uid x)%Z <-> b = true) -> lonely (w_set w v x) (lset L v b).
Proof. intros H Hx u. cbn. unfold upd, lset. destruct (Nat.eqb u v); [exact Hx|apply H]. Qed.
Lemma unary_uid (x : ureal RN) m d : uid (u_unary x m d) = uid x.
Proof. unfold u_unary. destruct (Z.ltb_spec 0 (uid x)); [reflexivity|]. destruct (Z.ltb_spec (uid x) 0); [reflexivity|]. cbn. lia. Qed.

Lemma lonely_step w L c : wwf w -> nary_ok c -> (w_last w + (if is_new c then 1 else 0) < maxid)%Z -> lonely w L ->
  lonely (fst (exec w c)) (lone_exec L c).
Proof.
  intros [P W] HN HB H.
  assert (FF : (0 < invalid_id)%Z <-> false = true) by (unfold invalid_id; split; [lia|discriminate]).
  assert (Bin : forall v x y mu dx dy, (w_last w < maxid)%Z -> lonely (fst (assign_result w v (u_binary (w_var w x) (w_var w y) mu dx dy))) (lset L v false)).
  { intros v x y mu dx dy B. destruct (binary_wf _ _ _ mu dx dy (W x) (W y) B) as (z & E & _ & _ & _ & I & _). rewrite E. cbn [assign_result fst].
    apply lonely_set; [exact H|]. rewrite I. exact FF. }
  assert (Asg : forall v x mu dt dx, lonely (w_set w v (u_assign_gen (Nat.eqb v x) (w_var w v) (w_var w x) mu dt dx)) (lset L v (if Nat.eqb v x then L v else false))).
  { intros v x mu dt dx. apply lonely_set; [exact H|]. unfold u_assign_gen. destruct (Nat.eqb v x); [apply H|exact FF]. }
  destruct c; cbn [is_new] in HB; rewrite ?Z.add_0_r in HB; cbn [exec lone_exec]; try (apply Bin; exact HB); try apply Asg; cbn [fst];
    try (apply lonely_set; [exact H|]; rewrite ?unary_uid; try apply H; unfold u_neg; rewrite ?unary_uid; apply H).
  - unfold u_new. cbn [usdev]. change (nltb s n0) with (Rltb s 0). rewrite wrap_small by lia. destruct (Rlt_dec s 0) as [Hs|Hs].
    + apply Rltb_true in Hs. rewrite Hs. exact H.
    + assert (Hs' : Rltb s 0 = false) by (apply Rltb_false; lra). rewrite Hs'. cbn [assign_result fst].
      apply (lonely_set (mkW (w_last w + 1) (w_var w))); [exact H|]. cbn. split; [reflexivity|lia].
  - apply lonely_set; [exact H|]. cbn. split; [lia|discriminate].
  - apply lonely_set; [exact H|]. cbn. split; [lia|discriminate].
  - destruct (nary_wf (w_last w) (map (w_var w) xs) (f (map (fun x => u_n (w_var w x)) xs)) (dfs (map (fun x => u_n (w_var w x)) xs))) as (z & Ez & _).
    + apply Forall_forall. intros y Hy. apply in_map_iff in Hy as (k & <- & _). apply (W k).
    + rewrite map_length. apply HN. now rewrite map_length.
    + rewrite Ez. cbn [assign_result fst]. apply lonely_set; [exact H|]. unfold u_nary in Ez. destruct (u_nary_loop (map (w_var w) xs)); try discriminate.
      injection Ez as <-. exact FF.
  - intro u. cbn. unfold upd. destruct (Nat.eqb_spec u v) as [->|]; [|apply H]. specialize (H v). unfold u_s_caching.
    destruct (0 <=? uid (w_var w v))%Z; [exact H|]. cbn. destruct (nltb _ _); exact H.
  - intro u. cbn. unfold upd. destruct (Nat.eqb_spec u v) as [->|]; [|apply H]. specialize (H v). unfold u_var_caching.
    destruct (0 <=? uid (w_var w v))%Z; [exact H|]. cbn. destruct (nltb _ _); exact H.
Qed.
Lemma lonely_run cs : forall w L w', wwf w -> Forall nary_ok cs -> (w_last w + Z.of_nat (count_new cs) < maxid)%Z -> lonely w L ->
  run w cs = Ret w' -> lonely w' (fold_left lone_exec cs L).
Proof.
  induction cs as [|c cs IH]; intros w L w' W F B H E.
  - cbn in E. injection E as <-. exact H.
  - inversion F as [|? ? Fc Fcs]; subst.
    assert (C : Z.of_nat (count_new (c :: cs)) = ((if is_new c then 1 else 0) + Z.of_nat (count_new cs))%Z)
      by (unfold count_new; cbn [filter]; destruct (is_new c); cbn [length]; lia).
    rewrite C in B. assert (B1 : (w_last w + (if is_new c then 1 else 0) < maxid)%Z) by (destruct (is_new c); lia).
    destruct (gen_exec Rltb_00 w c W Fc B1) as (W1 & L1 & O). assert (H1 := lonely_step w L c W Fc B1 H).
    cbn [run] in E. destruct (exec w c) as [w1 o]. cbn [fst snd] in *. cbn [fold_left].
    apply (IH w1); auto; [lia|]. destruct O as [->| ->]; exact E.
Qed.

Lemma C15_grad_exact_partial_proof : forall cs w, legal cs -> run w_init cs = Ret w -> forall u v i,
  let a := s_var (spec_run s_init cs) u in let b := s_var (spec_run s_init cs) v in
  l_dep a i -> (forall j, l_dep a j -> j = i) -> l_coef a i <> 0 ->
  u_grad (w_var w v) (w_var w u) = Ret (if lone cs v then 0 else l_coef b i / l_coef a i).
Proof.
  intros cs w L E u v i a b Hi Hu Hn. destruct (legal_sim cs L) as (w0 & E0 & (EL & P & R) & LW). rewrite E in E0. injection E0 as <-.
  destruct L as (F & _ & C). apply max_new_lt in C.
  assert (HL : lonely w (lone cs)).
  { apply (lonely_run cs w_init (fun _ => false) w); [split; [cbn; lia|intro; apply default_wf]|exact F|cbn; lia| |exact E].
    intro k. cbn. split; [lia|discriminate]. }
  assert (Rv := R v). assert (Ru := R u). fold a in Ru. fold b in Rv. assert (W := rep_wf _ _ _ Rv).
  assert (G0 : usigma (w_var w v) = [] -> u_grad (w_var w v) (w_var w u) = Ret 0).
  { intro Hs. destruct (grad_ok (w_var w v) (w_var w u)) as [(r & Er)|Er].
    - rewrite Er. unfold u_grad in Er. rewrite Hs in Er. destruct (negb _); [discriminate|].
      destruct (if (0 <? uid (w_var w u))%Z then _ else _); cbn in Er; try discriminate. injection Er as <-. reflexivity.
    - exfalso. apply (proj1 (rep_grad_throw _ _ _ (w_var w v) Ru) Er). eauto. }
  destruct (lone cs v) eqn:EL'.
  - apply HL in EL'. apply G0. apply (wf_nonneg _ _ W). lia.
  - assert (HU : ~ (0 < uid (w_var w v))%Z) by (rewrite (HL v), EL'; discriminate).
    destruct (Z.eq_dec (uid (w_var w v)) 0) as [Hz|Hz].
    + rewrite G0 by (apply (wf_nonneg _ _ W); lia). f_equal. rewrite <- (rep_coef _ _ _ Rv i). rewrite coef_zero by exact Hz. nR. field. assumption.
    + destruct (rep_grad_value _ _ _ _ _ i Ru Rv ltac:(lia) Hi Hu) as (r & Er & Hr). rewrite Er. f_equal. rewrite <- (Hr Hn). nR. field. assumption.
Qed.
