(** * Track2: the type of Track with a sharper count of roundings (C76)

    Sums with zero and products with zero are exact, and so are the halves of 0 and 1. *)

From Coq Require Import List ZArith Bool Reals Lra Lia Psatz.
From Flocq Require Import Core BinarySingleNaN.
From Verif Require Import Base Num Map HessGrad Moments UReal2 World2 SpecU2 SpecCast ConvProofs Ieee IeeeFacts SpecIeee IeeeProofs2 IeeeProofs3 IeeeProofs4
  IeeeCov IeeeRel IoAcc1 FunAcc2 FunAcc4 SpecAcc2 Track PolyHom.
Import ListNotations.
Local Open Scope R_scope.

Lemma rel_zero d r a k : rel d r a 0 k -> r = 0 /\ a = 0 /\ (finite d -> real_of d = 0).
Proof.
  intros [[A B] E]. assert (Z := Rabs_pos r). assert (a = 0) by lra. subst a. split; [|split; [reflexivity|]].
  - destruct (Req_dec r 0) as [|C]; [assumption|]. apply Rabs_pos_lt in C. lra.
  - intro F. specialize (E F). assert (r = 0) by (destruct (Req_dec r 0) as [|C]; [assumption|]; apply Rabs_pos_lt in C; lra). subst r.
    rewrite Rmult_0_r in E. destruct (Req_dec (real_of d) 0) as [|C]; [assumption|]. apply Rabs_pos_lt in C. rewrite Rminus_0_r in E. lra.
Qed.
Lemma near_real d : nearest (real_of d) = real_of d.
Proof. unfold nearest. apply round_generic; [apply valid_rnd_N|]. apply generic_format_B2R. Qed.

Definition kadd (b1 b2 : R) (k1 k2 : nat) : nat :=
  if Req_EM_T b1 0 then if Req_EM_T b2 0 then 0%nat else k2 else if Req_EM_T b2 0 then k1 else S (Nat.max k1 k2).
Lemma rel_addp d1 r1 a1 b1 k1 d2 r2 a2 b2 k2 : rel d1 r1 a1 b1 k1 -> rel d2 r2 a2 b2 k2 ->
  rel (dadd d1 d2) (r1 + r2) (a1 + a2) (b1 + b2) (kadd b1 b2 k1 k2).
Proof.
  intros R1 R2. assert (R := rel_add _ _ _ _ _ _ _ _ _ _ R1 R2). destruct R as [A _].
  unfold kadd. destruct (Req_EM_T b1 0) as [->|]; [|destruct (Req_EM_T b2 0) as [->|]; [|now apply rel_add]].
  - destruct (rel_zero _ _ _ _ R1) as (-> & -> & V1). split; [exact A|]. intro F. destruct (add_val d1 d2 F) as (F1 & F2 & V).
    rewrite V, (V1 F1), Rplus_0_l, near_real. destruct (Req_EM_T b2 0) as [->|].
    + destruct (rel_zero _ _ _ _ R2) as (-> & -> & V2). rewrite (V2 F2). rewrite Rplus_0_l, Rminus_0_r, Rabs_R0. lra.
    + destruct R2 as [_ E]. specialize (E F2). rewrite !Rplus_0_l. exact E.
  - destruct (rel_zero _ _ _ _ R2) as (-> & -> & V2). split; [exact A|]. intro F. destruct (add_val d1 d2 F) as (F1 & F2 & V).
    rewrite V, (V2 F2), !Rplus_0_r, near_real. destruct R1 as [_ E]. exact (E F1).
Qed.
Lemma rel_subp d1 r1 a1 b1 k1 d2 r2 a2 b2 k2 : rel d1 r1 a1 b1 k1 -> rel d2 r2 a2 b2 k2 ->
  rel (dsub d1 d2) (r1 - r2) (a1 + a2) (b1 + b2) (kadd b1 b2 k1 k2).
Proof. intros R1 R2. rewrite dsub_dadd. unfold Rminus. apply rel_addp; [exact R1|now apply rel_opp]. Qed.
Definition kmul (b1 b2 : R) (k1 k2 : nat) : nat := if Req_EM_T (b1 * b2) 0 then 0%nat else S (k1 + k2).
Lemma rel_mulp d1 r1 a1 b1 k1 d2 r2 a2 b2 k2 : rel d1 r1 a1 b1 k1 -> rel d2 r2 a2 b2 k2 ->
  rel (dmul d1 d2) (r1 * r2) (mmul 0 a1 a2) (mmul tiny b1 b2) (kmul b1 b2 k1 k2).
Proof.
  intros R1 R2. assert (R := rel_mul _ _ _ _ _ _ _ _ _ _ R1 R2). unfold kmul. unfold mmul in R |- * at 2. destruct (Req_EM_T (b1 * b2) 0) as [Z|Z]; [|exact R].
  destruct R as [A E]. split; [exact A|]. intro F. specialize (E F). rewrite Rmult_0_r in E |- *. exact E.
Qed.

(** ** Decidable relation *)
Lemma rel_dec d r a b k : {rel d r a b k} + {~ rel d r a b k}.
Proof.
  destruct (Rle_dec (Rabs r) a) as [A|A]; [|right; intros [[? ?] _]; contradiction].
  destruct (Rle_dec a b) as [B|B]; [|right; intros [[? ?] _]; contradiction].
  unfold rel, finite. destruct (is_finite d).
  - destruct (Rle_dec (Rabs (real_of d - r)) (u1 ^ k * b - a)) as [C|C]; [left; auto|]. right. intros [_ E]. apply C, E. reflexivity.
  - left. split; [auto|discriminate].
Qed.
Definition t_try (d : double) (r a b : R) : trk :=
  match rel_dec d r a b 0 with left H => mkTrk d r a b 0 H | right _ => t_exact d end.
Definition p_add (x y : trk) : trk := mkTrk (dadd (td x) (td y)) (tr x + tr y) (ta x + ta y) (tb x + tb y) (kadd (tb x) (tb y) (tk x) (tk y)) (rel_addp _ _ _ _ _ _ _ _ _ _ (t_ok x) (t_ok y)).
Definition p_sub (x y : trk) : trk := mkTrk (dsub (td x) (td y)) (tr x - tr y) (ta x + ta y) (tb x + tb y) (kadd (tb x) (tb y) (tk x) (tk y)) (rel_subp _ _ _ _ _ _ _ _ _ _ (t_ok x) (t_ok y)).
Definition p_mul (x y : trk) : trk := mkTrk (dmul (td x) (td y)) (tr x * tr y) (mmul 0 (ta x) (ta y)) (mmul tiny (tb x) (tb y)) (kmul (tb x) (tb y) (tk x) (tk y)) (rel_mulp _ _ _ _ _ _ _ _ _ _ (t_ok x) (t_ok y)).
Definition PN : Num := {|
  T := trk; n0 := t_0; n1 := t_exact (dofZ 1);
  nadd := p_add; nsub := p_sub; nmul := p_mul; ndiv := fun x y => t_try (ddiv (td x) (td y)) (tr x / tr y) (ta x / ta y) (tb x / tb y); nopp := t_opp;
  nltb := fun x y => Bltb (td x) (td y); nleb := fun x y => Bleb (td x) (td y); neqb := fun x y => Beqb (td x) (td y);
  nabs := fun x => t_exact (dabs (td x)); nsqrt := fun x => t_exact (dsqrt (td x)); nofZ := t_ofZ |}.

Lemma pd_ring : keeps_ring (N := PN) (M := DN) td. Proof. repeat split. Qed.
Lemma pr_ring : keeps_ring (N := PN) (M := RN) tr. Proof. repeat split. Qed.
Lemma pa_ring : keeps_ring (N := PN) (M := mag 0) ta. Proof. repeat split. Qed.
Lemma pb_ring : keeps_ring (N := PN) (M := mag tiny) tb. Proof. repeat split. Qed.

(** ** Halves of the literals *)
Lemma t_try_eq d r a b : rel d r a b 0 -> td (t_try d r a b) = d /\ tr (t_try d r a b) = r /\ ta (t_try d r a b) = a /\ tb (t_try d r a b) = b /\ tk (t_try d r a b) = 0%nat.
Proof. intro H. unfold t_try. destruct (rel_dec d r a b 0) as [?|C]; [cbn; auto|contradiction]. Qed.
Lemma half_val l : l = 0%Z \/ l = 1%Z -> finite (ddiv (dofZ l) (dofZ 2)) /\ real_of (ddiv (dofZ l) (dofZ 2)) = IZR l / 2.
Proof.
  intros [-> | ->].
  - split; [reflexivity|]. assert (E : ddiv (dofZ 0) (dofZ 2) = dofZ 0) by (vm_compute; reflexivity). rewrite E. destruct (dofZ_exact 0) as [_ ->]; [cbn; lia|]. lra.
  - split; [reflexivity|]. assert (E : B2SF (ddiv (dofZ 1) (dofZ 2)) = SpecFloat.S754_finite false 4503599627370496 (-53)) by (vm_compute; reflexivity).
    unfold real_of. rewrite <- SF2R_B2SF, E. cbn [SF2R cond_Zopp]. unfold F2R. cbn [Fnum Fexp].
    replace 4503599627370496%Z with (2 ^ 52)%Z by reflexivity. change (bpow radix2 (-53)) with (/ IZR (2 ^ 53)). assert (P : (2 ^ 53 = 2 * 2 ^ 52)%Z) by reflexivity. rewrite P.
    rewrite mult_IZR. assert (IZR (2 ^ 52) <> 0) by (apply IZR_neq; discriminate). field. assumption.
Qed.
Lemma half_rel l : l = 0%Z \/ l = 1%Z -> rel (ddiv (dofZ l) (dofZ 2)) (IZR l / IZR 2) (Rabs (IZR l) / Rabs (IZR 2)) (Rabs (IZR l) / Rabs (IZR 2)) 0.
Proof.
  intro H. destruct (half_val l H) as [F V]. split.
  - unfold Rdiv. rewrite Rabs_mult, Rabs_inv. lra.
  - intros _. rewrite V, Rminus_eq_0, Rabs_R0. cbn [pow]. lra.
Qed.
Definition phalf (l : Z) : PN := ndiv (n := PN) (nofZ l) (nofZ 2).
Lemma phalf_eq l : l = 0%Z \/ l = 1%Z -> td (phalf l) = ddiv (dofZ l) (dofZ 2) /\ tr (phalf l) = IZR l / IZR 2 /\
  ta (phalf l) = Rabs (IZR l) / Rabs (IZR 2) /\ tb (phalf l) = Rabs (IZR l) / Rabs (IZR 2) /\ tk (phalf l) = 0%nat.
Proof. intro H. exact (t_try_eq _ _ _ _ (half_rel l H)). Qed.
Lemma pz l : l = 0%Z \/ l = 1%Z -> neqb (n := PN) (phalf l) n0 = (l =? 0)%Z.
Proof. intro H. change (Beqb (td (phalf l)) dzero = (l =? 0)%Z). destruct (phalf_eq l H) as [-> _]. destruct H as [-> | ->]; vm_compute; reflexivity. Qed.
Lemma Reqb_half l : l = 0%Z \/ l = 1%Z -> Reqb (IZR l / IZR 2) 0 = (l =? 0)%Z.
Proof. unfold Reqb. intros [-> | ->]; destruct (Req_EM_T _ _); cbn; try reflexivity; exfalso; lra. Qed.
Lemma Reqb_half' l : l = 0%Z \/ l = 1%Z -> Reqb (Rabs (IZR l) / Rabs (IZR 2)) 0 = (l =? 0)%Z.
Proof. intro H. rewrite <- (Reqb_half l H). f_equal. destruct H as [-> | ->]; rewrite !Rabs_pos_eq by lra; reflexivity. Qed.
Lemma pd_half l : l = 0%Z \/ l = 1%Z -> halves (N := PN) (M := DN) td l (l =? 0)%Z.
Proof. intro H. split; [exact (proj1 (phalf_eq l H))|]. split; [exact (pz l H)|]. destruct H as [-> | ->]; vm_compute; reflexivity. Qed.
Lemma pr_half l : l = 0%Z \/ l = 1%Z -> halves (N := PN) (M := RN) tr l (l =? 0)%Z.
Proof. intro H. split; [exact (proj1 (proj2 (phalf_eq l H)))|]. split; [exact (pz l H)|]. exact (Reqb_half l H). Qed.
Lemma pa_half l : l = 0%Z \/ l = 1%Z -> halves (N := PN) (M := mag 0) ta l (l =? 0)%Z.
Proof. intro H. split; [exact (proj1 (proj2 (proj2 (phalf_eq l H))))|]. split; [exact (pz l H)|]. exact (Reqb_half' l H). Qed.
Lemma pb_half l : l = 0%Z \/ l = 1%Z -> halves (N := PN) (M := mag tiny) tb l (l =? 0)%Z.
Proof. intro H. split; [exact (proj1 (proj2 (proj2 (proj2 (phalf_eq l H)))))|]. split; [exact (pz l H)|]. exact (Reqb_half' l H). Qed.

(** ** Counts *)
Lemma k_add (x y : PN) k : (tk x <= k)%nat -> (tk y <= k)%nat -> (tk (nadd (n := PN) x y) <= S k)%nat.
Proof. intros. change (kadd (tb x) (tb y) (tk x) (tk y) <= S k)%nat. unfold kadd. repeat destruct (Req_EM_T _ _); lia. Qed.
Lemma k_add0 (x y : PN) k : tb x = 0 -> (tk y <= k)%nat -> (tk (nadd (n := PN) x y) <= k)%nat.
Proof. intros. change (kadd (tb x) (tb y) (tk x) (tk y) <= k)%nat. unfold kadd. repeat destruct (Req_EM_T _ _); try lia; contradiction. Qed.
Lemma k_add0r (x y : PN) k : tb y = 0 -> (tk x <= k)%nat -> (tk (nadd (n := PN) x y) <= k)%nat.
Proof. intros. change (kadd (tb x) (tb y) (tk x) (tk y) <= k)%nat. unfold kadd. repeat destruct (Req_EM_T _ _); try lia; contradiction. Qed.
Lemma k_mul (x y : PN) k l : (tk x <= k)%nat -> (tk y <= l)%nat -> (tk (nmul (n := PN) x y) <= S (k + l))%nat.
Proof. intros. change (kmul (tb x) (tb y) (tk x) (tk y) <= S (k + l))%nat. unfold kmul. destruct (Req_EM_T _ _); lia. Qed.
Lemma b_mul0 (x y : PN) : tb x = 0 -> tb (nmul (n := PN) x y) = 0.
Proof. intro E. change (mmul tiny (tb x) (tb y) = 0). rewrite E. unfold mmul. rewrite Rmult_0_l. destruct (Req_EM_T 0 0); [reflexivity|congruence]. Qed.
Lemma b_half0 : tb (phalf 0) = 0.
Proof. destruct (phalf_eq 0 (or_introl eq_refl)) as (_ & _ & _ & -> & _). rewrite Rabs_R0. unfold Rdiv. ring. Qed.
