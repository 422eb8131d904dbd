(** * UPoly: programs of +, - and * on UReal over several numeric types at once (C83) *)

From Coq Require Import List ZArith Bool Reals Lra Lia Psatz.
From Flocq Require Import Core BinarySingleNaN.
From Verif Require Import Base Num Map UReal World URealFacts URealProofs2 SpecCast ConvProofs.
From Verif Require Import Ieee IeeeFacts SpecIeee IeeeProofs IeeeProofs2 IeeeProofs3 IeeeProofs4 IoAcc1 SpecAcc2 Track SpecAcc3 SpecAcc4.
Import ListNotations.
Local Open Scope R_scope.

(** ** Variables with the same numbers up to a conversion; the stored deviation of a dependent variable is left out *)
Section Sim.
  Context {N M : Num} (c : N -> M) (K : keeps_ring c).
  Hypothesis (Kopp : forall a, c (nopp a) = nopp (c a)) (K1 : c n1 = n1).
  (** multiplications by one can be omitted; on the first type they never are *)
  Hypothesis (Never : forall a b : N, neqb a b = false) (Skip : forall a d : M, neqb d n1 = true -> nmul a d = a).

  Definition same (x : ureal N) (y : ureal M) : Prop :=
    uid y = uid x /\ umu y = c (umu x) /\ forall i, ufind i y = option_map c (ufind i x).

  Lemma same_const n m : m = c n -> same (u_const n) (u_const m).
  Proof. intros ->. repeat split. Qed.
  Lemma same_default : same u_default u_default.
  Proof. repeat split. cbn. symmetry. apply (c_0 c K). Qed.
  Lemma same_nom x y n m : m = c n -> same x y -> same (u_change_nom x n) (u_change_nom y m).
  Proof. intros -> (A & B & C). split; [exact A|]. split; [reflexivity|]. exact C. Qed.
  Lemma same_unary l l' x y mu dx mu' dx' : wf l x -> wf l' y -> same x y -> mu' = c mu -> dx' = c dx -> same (u_unary x mu dx) (u_unary y mu' dx').
  Proof.
    intros Wx Wy (A & B & C) -> ->. destruct (unary_wf l x mu dx Wx) as (_ & Fx & Mx). destruct (unary_wf l' y (c mu) (c dx) Wy) as (_ & Fy & My).
    split; [|split; [now rewrite Mx, My|]].
    - unfold u_unary. rewrite A. destruct (0 <? uid x)%Z, (uid x <? 0)%Z; reflexivity.
    - intro i. rewrite Fx, Fy, C. destruct (ufind i x); cbn; [|reflexivity]. now rewrite (c_mul c K).
  Qed.
  Lemma comb2_c dx dy a b : comb2 (c dx) (c dy) (option_map c a) (option_map c b) = option_map c (comb2 dx dy a b).
  Proof. destruct a, b; cbn; now rewrite ?(c_add c K), ?(c_mul c K), ?(c_0 c K). Qed.
  Lemma same_binary l l' x x' y y' mu dx dy mu' dx' dy' : wf l x -> wf l y -> wf l' x' -> wf l' y' -> (l < maxid)%Z -> (l' < maxid)%Z ->
    same x x' -> same y y' -> mu' = c mu -> dx' = c dx -> dy' = c dy ->
    exists z z', u_binary x y mu dx dy = Ret z /\ u_binary x' y' mu' dx' dy' = Ret z' /\ same z z'.
  Proof.
    intros Wx Wy Wx' Wy' Ll Ll' (_ & _ & Cx) (_ & _ & Cy) -> -> ->.
    destruct (binary_wf l x y mu dx dy Wx Wy Ll) as (z & E & _ & Mz & Fz & Uz & _). destruct (binary_wf l' x' y' (c mu) (c dx) (c dy) Wx' Wy' Ll') as (z' & E' & _ & Mz' & Fz' & Uz' & _).
    exists z, z'. split; [exact E|]. split; [exact E'|]. split; [now rewrite Uz, Uz'|]. split; [now rewrite Mz, Mz'|].
    intro i. rewrite Fz, Fz', Cx, Cy. apply comb2_c.
  Qed.
  Lemma own_c dt a : scale_own (N := M) (c dt) (c a) = c (scale_own dt a).
  Proof.
    unfold scale_own. rewrite Never. cbn [negb]. rewrite (c_mul c K). destruct (neqb (c dt) n1) eqn:E; cbn [negb]; [|reflexivity]. symmetry. now apply Skip.
  Qed.
  Lemma comb2a_c dt dx a b : comb2a (c dt) (c dx) (option_map c a) (option_map c b) = option_map c (comb2a dt dx a b).
  Proof. destruct a, b; cbn; now rewrite ?(c_add c K), ?own_c, ?(c_mul c K), ?(c_0 c K). Qed.
  Hypothesis (Z0 : nltb (n0 : N) n0 = false) (Z0' : nltb (n0 : M) n0 = false).
  Lemma same_assign l l' al x x' y y' mu dt dx mu' dt' dx' : wf l x -> wf l y -> wf l' x' -> wf l' y' ->
    same x x' -> same y y' -> mu' = c mu -> dt' = c dt -> dx' = c dx -> same (u_assign_gen al x y mu dt dx) (u_assign_gen al x' y' mu' dt' dx').
  Proof.
    intros Wx Wy Wx' Wy' (Ux & _ & Cx) (_ & _ & Cy) -> -> ->. destruct al; cbn [u_assign_gen].
    - destruct (binary_assign_self_wf l x mu dt dx Wx (fun _ => Z0)) as (_ & F & Mm). destruct (binary_assign_self_wf l' x' (c mu) (c dt) (c dx) Wx' (fun _ => Z0')) as (_ & F' & Mm').
      split; [exact Ux|]. split; [now rewrite Mm, Mm'|]. intro i. rewrite F, F', Cx. destruct (ufind i x); cbn; [|reflexivity]. now rewrite (c_mul c K), (c_add c K).
    - destruct (binary_assign_wf l x y mu dt dx Wx Wy) as (_ & F & Mm). destruct (binary_assign_wf l' x' y' (c mu) (c dt) (c dx) Wx' Wy') as (_ & F' & Mm').
      split; [reflexivity|]. split; [now rewrite Mm, Mm'|]. intro i. rewrite F, F', Cx, Cy. apply comb2a_c.
  Qed.
  Lemma same_caching l l' x y : wf l x -> wf l' y -> same x y -> same (snd (u_s_caching x)) (snd (u_s_caching y)).
  Proof.
    intros Wx Wy (A & B & C). destruct (s_caching_wf l x Wx) as (_ & Fx & Mx & Ux). destruct (s_caching_wf l' y Wy) as (_ & Fy & My & Uy).
    split; [now rewrite Ux, Uy|]. split; [now rewrite Mx, My|]. intro i. now rewrite Fx, Fy, C.
  Qed.

  Definition wsame (w : world N) (w' : world M) : Prop := w_last w' = w_last w /\ forall v, same (w_var w v) (w_var w' v).
  Lemma wsame_set w w' v x y : wsame w w' -> same x y -> wsame (w_set w v x) (w_set w' v y).
  Proof. intros [A B] S. split; [exact A|]. intro u. cbn. unfold upd. destruct (Nat.eqb u v); auto. Qed.
  Lemma wsame_init : wsame w_init w_init.
  Proof. split; [reflexivity|]. intro v. apply same_default. Qed.

  Variables (f : DN -> N) (g : DN -> M).
  Hypothesis (Fg : forall d, c (f d) = g d).
  Hypothesis (Pf : forall d, nltb (n := DN) d n0 = false -> nltb (f d) n0 = false) (Pg : forall d, nltb (n := DN) d n0 = false -> nltb (g d) n0 = false).
  Lemma sim_uexec w w' k : upoly k -> wwf w -> wwf w' -> (w_last w + (if is_new k then 1 else 0) < maxid)%Z -> wsame w w' ->
    snd (exec w (ucall_on N f k)) = Ret tt /\ snd (exec w' (ucall_on M g k)) = Ret tt /\
    wsame (fst (exec w (ucall_on N f k))) (fst (exec w' (ucall_on M g k))).
  Proof.
    intros P [Lw W] [Lw' W'] B Sm. assert (L : (w_last w < maxid)%Z) by (destruct (is_new k); lia). assert (L' : (w_last w' < maxid)%Z) by (destruct Sm as [-> _]; exact L).
    assert (Bin : forall v x y mu dx dy mu' dx' dy', mu' = c mu -> dx' = c dx -> dy' = c dy ->
      let r := assign_result w v (u_binary (w_var w x) (w_var w y) mu dx dy) in
      let r' := assign_result w' v (u_binary (w_var w' x) (w_var w' y) mu' dx' dy') in
      snd r = Ret tt /\ snd r' = Ret tt /\ wsame (fst r) (fst r')).
    { intros v x y mu dx dy mu' dx' dy' E1 E2 E3. destruct (same_binary _ _ _ _ _ _ mu dx dy mu' dx' dy' (W x) (W y) (W' x) (W' y) L L' (proj2 Sm x) (proj2 Sm y) E1 E2 E3) as (z & z' & E & E' & Sz).
      rewrite E, E'. cbn [assign_result fst snd]. split; [reflexivity|]. split; [reflexivity|]. now apply wsame_set. }
    assert (Set_ : forall v x y, same x y -> @Ret unit tt = Ret tt /\ @Ret unit tt = Ret tt /\ wsame (w_set w v x) (w_set w' v y)).
    { intros v x y S. split; [reflexivity|]. split; [reflexivity|]. now apply wsame_set. }
    assert (Mu : forall x, umu (w_var w' x) = c (umu (w_var w x))) by (intro x; apply (proj2 Sm x)).
    destruct k; cbn in P; try contradiction; cbn [ucall_on exec is_new fst snd] in *.
    - destruct (new_wf (w_last w) (f n) (f s)) as (E1 & _ & E2); [lia|]. destruct (new_wf (w_last w') (g n) (g s)) as (E1' & _ & E2'); [destruct Sm as [-> _]; lia|].
      destruct (u_new (w_last w) (f n) (f s)) as [l o]. destruct (u_new (w_last w') (g n) (g s)) as [l' o']. cbn [fst snd] in E1, E2, E1', E2'. subst l o l' o'.
      rewrite (Pf s P), (Pg s P). cbn [assign_result fst snd]. split; [reflexivity|]. split; [reflexivity|]. destruct Sm as [Sl Sv]. apply wsame_set.
      + split; [cbn; now rewrite Sl|]. exact Sv.
      + rewrite Sl. split; [reflexivity|]. split; [symmetry; apply Fg|]. intro i. unfold ufind. cbn [uid usdev usigma]. destruct (0 <? w_last w + 1)%Z; [|destruct (w_last w + 1 <? 0)%Z; reflexivity].
        destruct (i =? w_last w + 1)%Z; [|reflexivity]. cbn. now rewrite Fg.
    - apply Set_, same_const. symmetry. apply Fg.
    - apply Set_, same_default.
    - apply Set_. exact (proj2 Sm x).
    - apply Set_, same_nom; [symmetry; apply Fg|exact (proj2 Sm x)].
    - apply Set_. unfold u_neg. eapply same_unary; [apply W|apply W'|exact (proj2 Sm x)| |]; [now rewrite Mu, Kopp|now rewrite Kopp, K1].
    - unfold u_add. apply Bin; [now rewrite !Mu, (c_add c K)|now rewrite K1|now rewrite K1].
    - unfold u_sub. apply Bin; [now rewrite !Mu, (c_sub c K)|now rewrite K1|now rewrite Kopp, K1].
    - unfold u_mul. apply Bin; [now rewrite !Mu, (c_mul c K)|apply Mu|apply Mu].
    - apply Set_. unfold u_add_assign. eapply same_assign; [apply W|apply W|apply W'|apply W'|exact (proj2 Sm v)|exact (proj2 Sm x)| | |]; [now rewrite !Mu, (c_add c K)|now rewrite K1|now rewrite K1].
    - apply Set_. unfold u_sub_assign. eapply same_assign; [apply W|apply W|apply W'|apply W'|exact (proj2 Sm v)|exact (proj2 Sm x)| | |]; [now rewrite !Mu, (c_sub c K)|now rewrite K1|now rewrite Kopp, K1].
    - apply Set_. unfold u_mul_assign. eapply same_assign; [apply W|apply W|apply W'|apply W'|exact (proj2 Sm v)|exact (proj2 Sm x)| | |]; [now rewrite !Mu, (c_mul c K)|apply Mu|apply Mu].
    - apply Set_. eapply same_caching; [apply W|apply W'|exact (proj2 Sm v)].
    - rewrite !var_caching_snd. apply Set_. eapply same_caching; [apply W|apply W'|exact (proj2 Sm v)].
  Qed.

  Lemma nary_ucall (Q : Num) (h : DN -> Q) k : nary_ok (ucall_on Q h k).
  Proof. destruct k; exact I. Qed.
  Lemma new_ucall (Q : Num) (h : DN -> Q) k : upoly k -> is_new (ucall_on Q h k) = is_new k.
  Proof. destruct k; intro P; try contradiction; reflexivity. Qed.
  Lemma sim_urun cs : List.Forall upoly cs -> forall w w', wwf w -> wwf w' -> (w_last w + Z.of_nat (count_new cs) < maxid)%Z -> wsame w w' ->
    exists w1 w1', run w (map (ucall_on N f) cs) = Ret w1 /\ run w' (map (ucall_on M g) cs) = Ret w1' /\ wwf w1 /\ wwf w1' /\ wsame w1 w1'.
  Proof.
    induction 1 as [|k cs P Ps IH]; intros w w' W W' B Sm; [exists w, w'; auto|].
    assert (C : Z.of_nat (count_new (k :: cs)) = ((if is_new k then 1 else 0) + Z.of_nat (count_new cs))%Z).
    { unfold count_new. cbn [filter]. destruct (is_new k); cbn [length]; lia. }
    rewrite C in B. assert (Lk : (w_last w + (if is_new k then 1 else 0) < maxid)%Z) by lia.
    destruct (sim_uexec w w' k P W W' Lk Sm) as (R1 & R2 & S1).
    destruct (gen_exec Z0 w (ucall_on N f k) W (nary_ucall _ _ _)) as (W1 & L1 & _); [rewrite new_ucall by exact P; exact Lk|].
    destruct (gen_exec Z0' w' (ucall_on M g k) W' (nary_ucall _ _ _)) as (W1' & _ & _); [rewrite new_ucall by exact P; destruct Sm as [-> _]; exact Lk|].
    rewrite new_ucall in L1 by exact P. destruct (IH _ _ W1 W1' ltac:(lia) S1) as (w1 & w1' & E & E' & H).
    exists w1, w1'. cbn [map run]. destruct (exec w (ucall_on N f k)) as [a o]. destruct (exec w' (ucall_on M g k)) as [a' o']. cbn [fst snd] in *. subst o o'. auto.
  Qed.
End Sim.
