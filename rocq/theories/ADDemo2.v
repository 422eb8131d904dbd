(** * ADDemo2: cases for C60 *)

From Coq Require Import List ZArith Bool Reals Lra Lia.
From Coquelicot Require Import Coquelicot.
From Verif Require Import Base Num Map UReal World HessGrad Moments CheckMoments UReal2 World2 Sums SpecLin SpecObs SpecAD URealFacts URealR URealProofs URealProofs2
  U2Facts U2World SpecU2 U2Values U2Ret SpecU2Run U2Proofs U2Proofs2 Demo2 SpecMath2 SpecOrder OrderProofs2 SpecAD2 ADProofs2 OrderDemo.
Import ListNotations.
Local Open Scope R_scope.

(** ** Which calls return *)
Definition plain (c : call2 RN) : Prop :=
  match c with
  | E1 (CNew _ _ s) => 0 <= s
  | E1 _ | ENew _ _ _ _ => False
  | ENewStd _ _ s _ thr => 0 <= s /\ thr < 0
  | _ => True
  end.
Lemma plain_ret env w c : wwf2 env w -> (w2_last w < maxid)%Z -> plain c -> snd (exec2 no_eig w c) = Ret tt.
Proof.
  intros W HB HP. destruct c; try (eapply other_ret; eauto; exact I); try contradiction.
  - destruct c; try contradiction. cbn [plain] in HP. cbn [exec2 exec]. unfold u_new. cbn [usdev].
    change (nltb s n0) with (Rltb s 0). apply Rltb_false in HP. now rewrite HP.
  - destruct HP as [H1 H2]. cbn [exec2]. rewrite new_std_free by assumption. reflexivity.
Qed.
Lemma plain_accepted cs : forall env w, wwf2 env w -> List.Forall nary_ok2 cs -> List.Forall thr_number cs ->
  (w2_last w + Z.of_nat (count_new2 cs) < maxid)%Z -> List.Forall plain cs -> accepted no_eig w cs.
Proof.
  induction cs as [|c cs IH]; intros env w W F T B P; [exact I|].
  inversion F as [|? ? Fc Fcs]; subst. inversion T as [|? ? Tc Tcs]; subst. inversion P as [|? ? Pc Pcs]; subst. rewrite count_new2_cons in B.
  assert (B1 : (w2_last w + (if is_new2 c then 1 else 0) < maxid)%Z) by (destruct (is_new2 c); lia).
  destruct (gen_exec2 Rltb_00 no_eig env w c W Fc Tc B1) as (env1 & W1 & _ & L1 & _).
  split; [apply (plain_ret env); [exact W|destruct (is_new2 c); lia|exact Pc]|].
  apply (IH env1); auto. lia.
Qed.
Lemma plain_legal_accepted cs : legal2 cs -> List.Forall plain cs -> accepted no_eig w2_init cs.
Proof.
  intros (F & T & C) P. apply max_new_lt in C. apply (plain_accepted cs (fun _ => mkM n0 n0 n0 n0 n0 n0)); [apply wwf2_init|exact F|exact T|change (w2_last w2_init) with 0%Z; lia|exact P].
Qed.

(** The history of OrderDemo.v: two variables, a UReal, a product and a quotient. *)
Lemma ord3_accepted : accepted no_eig w2_init ord3.
Proof. apply (plain_legal_accepted ord3 ord3_legal). repeat constructor; cbn; lra. Qed.
Lemma ord3_derivs : derivs2_ok ad_init ord3.
Proof. unfold ord3. cbn. unfold env_set. repeat (split; [exact I|]). split; [|exact I]. cbn. intro H. lra. Qed.
Lemma ord3_value : ad_fun (ad2_run ad_init ord3) 3%nat = (fun e => e 1%Z / e 2%Z).
Proof. reflexivity. Qed.

(** Where the pure second derivative of a function of several variables is taken, the
    mixed derivatives are not those of the program: here x + x^2 at x = a*b + c. *)
Lemma ord2'_derivs : derivs2_ok ad_init ord2'.
Proof.
  unfold ord2', mk3. cbn. repeat (split; [exact I|]). split; [|exact I].
  match goal with |- twice_derivable _ ?a _ _ => replace a with 0 by (unfold env_set; cbn; ring) end.
  exists (fun x => 1 + 2 * x). split; [apply filter_forall; intro; auto_derive; auto; ring|]. split; [ring|]. auto_derive; auto; ring.
Qed.
Lemma C60_second_order_taylor_refuted_proof : exists eig (cs : list (call2 RN)) w (v : nat) (i j : Z) a b,
  legal2 cs /\ accepted eig w2_init cs /\ derivs2_ok ad_init cs /\ run2 eig w2_init cs = Ret w /\
  let p := ad2_run ad_init cs in
  i <> j /\ ad_sd p i = 1 /\ ad_sd p j = 1 /\
  twice_differentiable (fun s t => ad_fun p v (moved (ad_mean p) (fun k => if Z.eqb k i then 1 else 0) (fun k => if Z.eqb k j then 1 else 0) s t)) 0 0
    0 0 a b 1 /\
  j_h (jet_of (w2_var w v)) i j = 0.
Proof.
  destruct ord2_run' as (w & E & E0 & E1 & E5).
  exists no_eig, ord2', w, 5%nat, 1%Z, 3%Z, 0, 0. split; [apply mk3_legal|].
  split; [apply plain_legal_accepted; [apply mk3_legal|repeat constructor; cbn; lra]|].
  split; [exact ord2'_derivs|]. split; [exact E|]. cbv zeta. split; [discriminate|]. split; [reflexivity|]. split; [reflexivity|]. split.
  - apply (td_ext (fun s t => (fun x => x + x * x) (s * t))).
    { intros s t. cbn. unfold moved, env_set. cbn. ring. }
    eapply td_eq; [apply (td_comp (fun u _ => u + u * u) (fun s t => s * t) (fun s t => s * t) 0 0 1 0 2 0 0);
      [|apply td_mul|apply td_mul]|..]; try ring.
    apply (td_unary (fun u => u + u * u)). rewrite Rmult_0_l.
    exists (fun x => 1 + 2 * x). split; [apply filter_forall; intro; auto_derive; auto; ring|]. split; [ring|]. auto_derive; auto; ring.
  - rewrite E5. reflexivity.
Qed.
