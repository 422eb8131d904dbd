(** * URealsAcc: ureals on doubles (C72) *)

From Coq Require Import List ZArith Bool Reals Lra Lia Psatz.
From Flocq Require Import Core BinarySingleNaN.
From Verif Require Import Base Num Map UReal World Sums SpecLin SpecObs URealFacts URealProofs Stat StatProofs UReals SpecLDLT
  URealsProofs Ieee IeeeFacts SpecIeee SpecIeee2 IeeeProofs IeeeProofs2 IeeeProofs3 IeeeProofs4 IeeeCov SpecMathIeee IeeeRel SpecLDLTIeee.
Import ListNotations.
Local Open Scope R_scope.

(** ** What is stored *)
Lemma dx_ok D (m : nat) : forall k last x, (0 <= last)%Z -> (last + Z.of_nat m < maxid)%Z ->
  (forall i, (k <= i < k + m)%nat -> finite (D i) /\ 0 <= real_of (D i)) ->
  exists x', ureals_x (N := DN) D (seq k m) last x = ((last + Z.of_nat m)%Z, Ret (x ++ x')) /\
    x' = map (fun i => mkU (N := DN) (last + 1 + Z.of_nat (i - k)) (dsqrt (D i)) dzero []) (seq k m).
Proof.
  induction m as [|m IH]; intros k last x Hl Hm HD.
  - exists []. cbn. rewrite Z.add_0_r, app_nil_r. auto.
  - cbn [seq ureals_x nleb DN n0].
    replace (Bleb dzero (D k)) with true.
    2: { destruct (HD k) as [F P]; [lia|]. symmetry. unfold dzero. rewrite Bleb_correct; [|reflexivity|exact F].
      apply Rle_bool_true. exact P. }
    unfold u_new. cbn [nltb DN n0 nsqrt usdev].
    assert (Q := nonneg_sqrt (D k)). unfold nonneg in Q. rewrite Q.
    assert (W : wrap32 (last + 1) = (last + 1)%Z).
    { unfold wrap32, maxid in *. rewrite Z.mod_small; lia. }
    rewrite W.
    destruct (IH (S k) (last + 1)%Z (x ++ [mkU (N := DN) (last + 1) (dsqrt (D k)) dzero []])) as (x' & E & Ex); [lia..| |].
    { intros; apply HD; lia. }
    exists (mkU (N := DN) (last + 1) (dsqrt (D k)) dzero [] :: x'). split.
    + etransitivity; [exact E|]. f_equal; [lia|]. now rewrite <- app_assoc.
    + cbn [map]. f_equal.
      * f_equal. lia.
      * rewrite Ex. apply map_ext_in. intros i Hi. apply in_seq in Hi. f_equal. lia.
Qed.

(** the coefficient of the new variable [k] in row [i] *)
Definition coef (L : nat -> nat -> double) (D : nat -> double) (i k : nat) : double :=
  if Nat.ltb k i then dadd dzero (dmul (dofZ 1) (dadd dzero (dmul (L i k) (dsqrt (D k)))))
  else dadd dzero (dmul (dofZ 1) (dsqrt (D k))).
Definition row_cells (last : Z) (c : nat -> double) (s m : nat) : list (Z * double) :=
  map (fun k => ((last + 1 + Z.of_nat k)%Z, c k)) (seq s m).

Lemma mset_last (k : Z) (v : double) (m : list (Z * double)) : (forall j, In j (map fst m) -> (j < k)%Z) -> mset k v m = m ++ [(k, v)].
Proof.
  induction m as [|[j w] m IH]; intro H; [reflexivity|]. cbn [mset app]. change (kcmp k j) with (Z.compare k j).
  assert (J : (j < k)%Z) by (apply H; now left). rewrite (proj2 (Z.compare_gt_iff k j)) by lia.
  rewrite IH; [reflexivity|]. intros i Hi. apply H. now right.
Qed.
Lemma mfind_last (k : Z) (m : list (Z * double)) : (forall j, In j (map fst m) -> (j < k)%Z) -> mfind k m = None.
Proof.
  induction m as [|[j w] m IH]; intro H; [reflexivity|]. cbn [mfind]. change (kcmp k j) with (Z.compare k j).
  assert (J : (j < k)%Z) by (apply H; now left). rewrite (proj2 (Z.compare_gt_iff k j)) by lia.
  apply IH. intros i Hi. apply H. now right.
Qed.
Lemma row_keys last c s m j : In j (map fst (row_cells last c s m)) <-> (last + 1 + Z.of_nat s <= j < last + 1 + Z.of_nat (s + m))%Z.
Proof.
  unfold row_cells. rewrite map_map, in_map_iff. cbn [fst]. split.
  - intros (k & <- & Hk). apply in_seq in Hk. lia.
  - intro H. exists (Z.to_nat (j - last - 1)). split; [lia|]. apply in_seq. lia.
Qed.
Lemma row_snoc last c m : row_cells last c 0 (S m) = row_cells last c 0 m ++ [((last + 1 + Z.of_nat m)%Z, c m)].
Proof. unfold row_cells. rewrite seq_S, map_app. reflexivity. Qed.

Lemma zero_times a : finite a -> dadd dzero (dmul a dzero) = dzero.
Proof. destruct a as [[|]|[|]| |[|] m e H]; intro F; try discriminate F; reflexivity. Qed.

Section Row.
  Variables (last : Z) (n : nat) (D : nat -> double) (L : nat -> nat -> double).
  Hypothesis Hl : (0 <= last)%Z.
  Hypothesis HL : forall i k, (k < i < n)%nat -> finite (L i k).
  Let x : list (ureal DN) := map (fun i => mkU (N := DN) (last + 1 + Z.of_nat (i - 0)) (dsqrt (D i)) dzero []) (seq 0 n).
  Lemma dx_nth k : (k < n)%nat -> nth_error x k = Some (mkU (N := DN) (last + 1 + Z.of_nat k) (dsqrt (D k)) dzero []).
  Proof.
    intro H. unfold x. rewrite (map_nth_error _ k (seq 0 n) (d := k)); [now rewrite Nat.sub_0_r|].
    rewrite (nth_error_nth' _ 0%nat) by now rewrite seq_length. now rewrite seq_nth.
  Qed.
  Lemma drow_loop i : (i < n)%nat -> forall m, (m <= i)%nat ->
    exists y, ofold (fun y j => xj <- buf_get j x;; p <- u_mul (N := DN) (u_const (N := DN) (L i j)) xj;; Ret (u_add_assign (N := DN) false y p)) (seq 0 m) (u_default (N := DN)) = Ret y /\
      (uid y <= 0)%Z /\ umu y = dzero /\ usigma y = row_cells last (coef L D i) 0 m.
  Proof.
    intro Hi. induction m as [|m IH]; intro Hm.
    - exists u_default. repeat split; cbn; lia.
    - destruct IH as (y & E & I & M & S); [lia|]. rewrite seq_S.
      assert (App : forall (A B : Type) (f : A -> B -> outcome A) l1 l2 a, ofold f (l1 ++ l2) a = (b <- ofold f l1 a;; ofold f l2 b)).
      { clear. intros A B f l1. induction l1 as [|b l1 IH]; intros l2 a; [reflexivity|]. cbn [app ofold]. destruct (f a b); cbn [bind]; auto. }
      rewrite App, E. cbn [bind ofold Nat.add]. unfold buf_get. rewrite dx_nth by lia. cbn [bind].
      unfold u_mul, u_binary. cbn [u_const uid usdev umu usigma].
      destruct (Z.ltb_spec 0 (last + 1 + Z.of_nat m)); [|lia]. cbn [Z.ltb Z.compare andb bind].
      unfold u_add_assign, u_assign_gen, u_binary_assign. cbn [uid usigma umu usdev].
      destruct (Z.ltb_spec 0 (uid y)); [lia|]. change (neqb (n1 : DN) n1) with true. cbn [negb].
      change (0 <? invalid_id)%Z with false. change (invalid_id <? 0)%Z with true.
      eexists. split; [reflexivity|]. cbn [uid umu usigma]. split; [unfold invalid_id; lia|].
      split; [rewrite M; apply zero_times, HL; lia|]. rewrite row_snoc, S.
      unfold mupd, mget. cbn [mset mfind u_add_scaled fold_left fst snd].
      unfold mupd, mget. rewrite mfind_last, mset_last.
      + f_equal. f_equal. f_equal. unfold coef. destruct (Nat.ltb_spec m i); [|lia]. reflexivity.
      + intros j Hj. apply row_keys in Hj. lia.
      + intros j Hj. apply row_keys in Hj. lia.
  Qed.
  Lemma drow_ok i : (i < n)%nat ->
    exists y, ureals_row (N := DN) L x i = Ret y /\ uid y = invalid_id /\ usdev y = nopp (n1 : DN) /\ umu y = dzero /\ usigma y = row_cells last (coef L D i) 0 (S i).
  Proof.
    intro Hi. destruct (drow_loop i Hi i) as (y & E & I & M & S); [lia|]. unfold ureals_row. rewrite E. cbn [bind].
    unfold buf_get. rewrite dx_nth by exact Hi. cbn [bind]. eexists. split; [reflexivity|].
    unfold u_add_assign, u_assign_gen, u_binary_assign. cbn [uid usigma umu usdev].
    destruct (Z.ltb_spec 0 (uid y)); [lia|]. change (neqb (n1 : DN) n1) with true. cbn [negb].
    destruct (Z.ltb_spec 0 (last + 1 + Z.of_nat i)); [|lia].
    split; [reflexivity|]. split; [reflexivity|]. split; [rewrite M; reflexivity|]. rewrite row_snoc, S.
    unfold mupd, mget. rewrite mfind_last, mset_last.
    - f_equal. f_equal. f_equal. unfold coef. destruct (Nat.ltb_spec i i); [lia|]. reflexivity.
    - intros j Hj. apply row_keys in Hj. lia.
    - intros j Hj. apply row_keys in Hj. lia.
  Qed.
End Row.

Lemma dshift_ok mu n : forall m k (l : list (ureal DN)) (g : nat -> list (Z * double)),
  (k + m = n)%nat -> length l = n -> length mu = n ->
  (forall i, (i < n)%nat -> exists y, nth_error l i = Some y /\ uid y = invalid_id /\ usdev y = nopp (n1 : DN) /\ usigma y = g i /\
      umu y = if Nat.ltb i k then dadd dzero (nth i mu dzero) else dzero) ->
  exists l', ofold (fun l i => y <- buf_get i l;; m <- buf_get i mu;;
                      buf_set i (u_add_assign (N := DN) false y (u_const (N := DN) m)) l) (seq k m) l = Ret l' /\
    length l' = n /\
    forall i, (i < n)%nat -> exists y, nth_error l' i = Some y /\ uid y = invalid_id /\ usdev y = nopp (n1 : DN) /\ usigma y = g i /\ umu y = dadd dzero (nth i mu dzero).
Proof.
  induction m as [|m IH]; intros k l g Hk Ll Lm H.
  - exists l. split; [reflexivity|]. split; [exact Ll|]. intros i Hi. destruct (H i Hi) as (y & E & I & Sd & S & M). exists y.
    destruct (Nat.ltb_spec i k); [|lia]. auto.
  - cbn [seq ofold]. destruct (H k) as (y & E & I & Sd & S & M); [lia|]. rewrite Nat.ltb_irrefl in M.
    unfold buf_get at 1. rewrite E. cbn [bind]. unfold buf_get at 1. rewrite (nth_error_nth' mu dzero) by lia. cbn [bind].
    match goal with |- context [buf_set k ?z l] => set (z0 := z); destruct (buf_set_Ret k z l) as (l1 & E1 & L1 & F1) end; [lia|].
    fold z0 in E1, F1. rewrite E1. cbn [bind].
    destruct (IH (Datatypes.S k) l1 g) as (l2 & E2 & L2 & F2); [lia|lia|exact Lm| |].
    + intros i Hi. rewrite F1. destruct (Nat.eqb_spec i k) as [->|Ne].
      * exists z0. split; [reflexivity|]. unfold z0, u_add_assign, u_assign_gen, u_binary_assign. cbn [u_const uid usigma umu usdev].
        rewrite I. change (0 <? invalid_id)%Z with false. change (neqb (n1 : DN) n1) with true. cbn [negb].
        change (0 <? 0)%Z with false. split; [reflexivity|]. split; [reflexivity|]. split; [exact S|]. rewrite M.
        destruct (Nat.ltb_spec k (Datatypes.S k)); [reflexivity|lia].
      * destruct (H i Hi) as (y' & E' & I' & Sd' & S' & M'). exists y'. do 4 (split; [assumption|]). rewrite M'.
        destruct (Nat.ltb_spec i k), (Nat.ltb_spec i (Datatypes.S k)); try lia; reflexivity.
    + exists l2. auto.
Qed.

Lemma ureals_stored (eigen : nat -> list ((nat * nat) * DN) -> ldlt DN) (last : Z) (mu cov : list DN) :
  let n := length mu in
  (0 <= last)%Z -> (last + Z.of_nat n < maxid)%Z -> (0 < n)%nat -> length cov = (n * n)%nat ->
  forall V, ureals_V n cov = Ret V ->
  ld_ok (eigen n V) = true -> ld_pos (eigen n V) = true ->
  let d := eigen n V in
  (forall k, (k < n)%nat -> (ld_T d k < n)%nat) ->
  (forall k, (k < n)%nat -> finite (ld_D d k) /\ 0 <= real_of (ld_D d k)) ->
  (forall i k, (k < i < n)%nat -> finite (ld_L d i k)) ->
  let rho := tr (ld_T d) (rev (seq 0 n)) in
  (forall i, (i < n)%nat -> (rho i < n)%nat /\ row_of (ld_T d) n (rho i) = i) /\
  exists out, ureals (N := DN) eigen last mu cov = ((last + Z.of_nat n)%Z, Ret out) /\ length out = n /\
    forall i, (i < n)%nat -> exists y, nth_error out i = Some y /\ uid y = invalid_id /\ usdev y = nopp (n1 : DN) /\
      usigma y = row_cells last (coef (ld_L d) (ld_D d) (rho i)) 0 (S (rho i)) /\ umu y = dadd dzero (nth i mu dzero).
Proof.
  intros n Hl Hn Hpos HLc V EV Hok Hps d HT HD HL rho.
  assert (Hrho : forall i, (i < n)%nat -> (rho i < n)%nat).
  { apply tr_lt. intros k Hk. apply in_rev, in_seq in Hk. split; [lia|apply HT; lia]. }
  split. { intros i Hi. split; [now apply Hrho|]. unfold row_of. fold (tr (ld_T d) (seq 0 n) (rho i)). unfold rho. apply tr_rev. }
  unfold ureals. fold n. rewrite size_check, HLc, Nat.eqb_refl. cbn [negb].
  destruct (Nat.eqb_spec n 0) as [F|_]; [lia|]. rewrite EV. fold d in Hok, Hps |- *. rewrite Hok, Hps. cbn [negb].
  destruct (dx_ok (ld_D d) n 0 last []) as (x & Ex & Dx); [lia..| |].
  { intros i Hi. apply HD. lia. }
  rewrite Ex. cbn [app bind].
  assert (Hrows := fun i Hi => drow_ok last n (ld_D d) (ld_L d) Hl HL i Hi). cbv zeta in Hrows. rewrite <- Dx in Hrows.
  destruct (omapM_rows (ureals_row (N := DN) (ld_L d) x)
     (fun i y => uid y = invalid_id /\ usdev y = nopp (n1 : DN) /\ umu y = dzero /\ usigma y = row_cells last (coef (ld_L d) (ld_D d) i) 0 (S i)) n 0)
    as (l1 & E1 & L1 & F1).
  { intros i Hi. destruct (Hrows i) as (y & Ey & A). { lia. } exists y. auto. }
  rewrite E1. cbn [bind].
  destruct (permute_ok (ld_T d) n l1 L1 HT) as (l2 & E2 & L2 & F2). rewrite E2. cbn [bind]. fold rho in F2.
  destruct (dshift_ok mu n n 0 l2 (fun i => row_cells last (coef (ld_L d) (ld_D d) (rho i)) 0 (S (rho i)))) as (l3 & E3 & L3 & F3); auto.
  { intros i Hi. rewrite F2. destruct (F1 (rho i) (Hrho i Hi)) as (y & Ey & A & A' & B & C). exists y. auto 6. }
  exists l3. split; [f_equal; exact E3|]. auto.
Qed.
