(** * AccMom: numbers of roundings in the loops of moments.hpp (C75) *)

From Coq Require Import List ZArith Bool Reals Lra Lia Psatz Sorted.
From Verif Require Import Base Num Map HessGrad Moments UReal2 World2 HessProofs U2Facts U2World U2Ret SpecU2 SpecCast ConvProofs Ieee SpecIeee SpecAcc2.
Import ListNotations.
Local Open Scope nat_scope.

Notation KN := roundings.
Definition zm : moms KN := mkM (N := KN) 0 0 0 0 0 0.
Definition zrd : rdiag KN := mkRD (N := KN) 0 0 zm.
Definition zde (it : dentry KN) : Prop := snd it = zrd.
Definition zte (it : tentry KN) : Prop := diag1 it = zrd /\ diag2 it = zrd /\ val it = 0.

Section Loops.
  Variable D : nat.
  Lemma step (m e : KN) j : m <= D + j -> e <= D -> nadd m e <= D + S j.
  Proof. intros. cbn. lia. Qed.
  Lemma each_bound {A} (Q : A -> Prop) (f : A -> KN -> KN) c l : (forall a, Q a -> forall m j, m <= D + j -> f a m <= D + (c + j)) ->
    List.Forall Q l -> forall m j, m <= D + j -> for_each f l m <= D + (length l * c + j).
  Proof.
    intros H F. induction F as [|a l Qa F IH]; intros m j L; [cbn; exact L|]. cbn [for_each fold_left length].
    specialize (IH (f a m) (c + j) (H a Qa m j L)). unfold for_each in IH. nia.
  Qed.
  Lemma tails_bound {A} (Q : A -> Prop) (f : A -> list A -> KN -> KN) n c l :
    (forall a r, Q a -> List.Forall Q r -> length r <= n -> forall m j, m <= D + j -> f a r m <= D + (c + j)) ->
    List.Forall Q l -> length l <= n -> forall m j, m <= D + j -> for_tails f l m <= D + (length l * c + j).
  Proof.
    intros H F. induction F as [|a l Qa F IH]; intros Hn m j L; [cbn; exact L|]. cbn [for_tails length] in *.
    specialize (IH ltac:(lia) (f a l m) (c + j) (H a l Qa F ltac:(lia) m j L)). nia.
  Qed.
  Definition obound (o : outcome KN) (b : nat) : Prop := match o with Ret m => m <= b | _ => True end.
  Lemma otails_bound {A} (Q : A -> Prop) (f : A -> list A -> KN -> outcome KN) n c l :
    (forall a r, Q a -> List.Forall Q r -> length r <= n -> forall m j, m <= D + j -> obound (f a r m) (D + (c + j))) ->
    List.Forall Q l -> length l <= n -> forall m j, m <= D + j -> obound (ofor_tails f l m) (D + (length l * c + j)).
  Proof.
    intros H F. induction F as [|a l Qa F IH]; intros Hn m j L; [cbn; exact L|]. cbn [ofor_tails length] in *.
    assert (B := H a l Qa F ltac:(lia) m j L). destruct (f a l m) as [m'|e| |]; cbn [bind obound] in *; try exact I.
    specialize (IH ltac:(lia) m' (c + j) B). destruct (ofor_tails f l m'); cbn [obound] in *; try exact I. nia.
  Qed.
  Lemma owhile_bound {A} (Q : A -> Prop) (p : A -> bool) (f : A -> KN -> outcome KN) c l :
    (forall a, Q a -> forall m j, m <= D + j -> obound (f a m) (D + (c + j))) ->
    List.Forall Q l -> forall m j, m <= D + j -> obound (ofor_while p f l m) (D + (length l * c + j)).
  Proof.
    intros H F. induction F as [|a l Qa F IH]; intros m j L; [cbn; exact L|]. cbn [ofor_while length]. destruct (p a); [|cbn; nia].
    assert (B := H a Qa m j L). destruct (f a m) as [m'|e| |]; cbn [bind obound] in *; try exact I.
    specialize (IH m' (c + j) B). destruct (ofor_while p f l m'); cbn [obound] in *; try exact I. nia.
  Qed.
End Loops.

(** [m + e1 + ... + en <= 6 + (n + j)] *)
Ltac steps := eapply Nat.le_trans; [repeat (eapply (step 6); [|cbv; lia]); eassumption|lia].
Ltac zs := repeat match goal with
  | H : zde ?it |- _ => red in H
  | H : zte _ |- _ => destruct H as (? & ? & ?)
  end.
Notation B6 f c := (forall m j, m <= 6 + j -> f m <= 6 + (c + j)).

Lemma k_m1 (h : hessgrad KN) : (forall k d, In (k, d) (diagmap h) -> dhh d = 0) -> compute_m1 h <= length (diagmap h).
Proof.
  intro H. unfold compute_m1. assert (E := each_bound 0 (fun kd : Z * diag KN => dhh (snd kd) = 0) (fun it m => nadd m (dhh (snd it))) 1 (diagmap h)).
  eapply Nat.le_trans; [apply (E ltac:(intros a Qa m j L; cbv beta; rewrite Qa; cbn; lia)) with (j := 0)|lia].
  - apply Forall_forall. intros [k d] Hk. cbn. eapply H, Hk.
  - cbn. lia.
Qed.

Lemma k2_A it : zde it -> B6 (m2_A it) 3.
Proof. intros Z m j L. zs. unfold m2_A. rewrite Z. cbv zeta. steps. Qed.
Lemma k2_B it : zte it -> B6 (m2_B it) 1.
Proof. intros Z m j L. zs. unfold m2_B. rewrite H, H0, H1. cbv zeta. steps. Qed.
Lemma k2_loops ds ts : List.Forall zde ds -> List.Forall zte ts -> m2_loops ds ts <= 6 + (3 * length ds + length ts).
Proof.
  intros F1 F2. unfold m2_loops.
  assert (E1 := each_bound 6 zde m2_A 3 ds (fun a q => k2_A a q) F1 0 0 ltac:(lia)).
  assert (E2 := each_bound 6 zte m2_B 1 ts (fun a q => k2_B a q) F2 _ _ E1). cbn [n0 KN T] in *. lia.
Qed.

Lemma k3_C it : zde it -> B6 (m3_C (N := KN) 0 0 it) 1.
Proof. intros Z m j L. zs. unfold m3_C. rewrite Z. cbv zeta. steps. Qed.
Lemma k3_B n it r : zde it -> List.Forall zde r -> length r <= n -> B6 (m3_B zrd it r) (6 + n).
Proof.
  intros Z F Hn m j L. unfold m3_B. red in Z. rewrite Z. cbv zeta.
  assert (E := fun m j => each_bound 6 zde (m3_C (H zrd) (H zrd)) 1 r (fun a q => k3_C a q) F m j).
  eapply Nat.le_trans; [eapply (E _ (6 + j)); steps|lia].
Qed.
Lemma k3_F id it : zte it -> B6 (m3_F (N := KN) id 0 it) 1.
Proof. intros Z m j L. zs. unfold m3_F. destruct (_ || _); [lia|]. rewrite H1. cbv zeta. steps. Qed.
Lemma k3_A n ts it r : zde it -> List.Forall zde r -> length r <= n -> List.Forall zte ts -> B6 (m3_A ts it r) (4 + n * (6 + n) + length ts).
Proof.
  intros Z F Hn Ft m j L. unfold m3_A. red in Z. rewrite Z. cbv zeta.
  assert (E1 := fun m j => tails_bound 6 zde (m3_B zrd) n (6 + n) r (fun a r q Fr Hr => k3_B n a r q Fr Hr) F Hn m j).
  assert (E2 := fun m j => each_bound 6 zte (m3_F (fst it) (H zrd)) 1 ts (fun a q => k3_F (fst it) a q) Ft m j).
  eapply Nat.le_trans; [eapply (E2 _ _); eapply (E1 _ (4 + j)); steps|nia].
Qed.
Lemma k3_D it : zte it -> B6 (m3_D it) 9.
Proof. intros Z m j L. zs. unfold m3_D. rewrite H, H0, H1. cbv zeta. steps. Qed.

(** the storage holds only zeros *)
Definition ztri (h : hessgrad KN) : Prop := forall k v, In (k, v) (trimap h) -> v = 0.
Lemma ztri_find h i j v : ztri h -> hg_tri_find h i j = Some v -> v = 0.
Proof. intros Z E. unfold hg_tri_find in E. eapply Z. eapply mfind_In. exact E. Qed.
Lemma k3_E h it it2 : ztri h -> zte it -> zte it2 -> forall m j, m <= 6 + j -> obound (m3_E h it it2 m) (6 + (1 + j)).
Proof.
  intros Zh Z Z2 m j L. destruct Z as (_ & _ & V1), Z2 as (_ & _ & V2). unfold m3_E. rewrite V1, V2. unfold hg_tri_get.
  destruct (assert_ _); cbn [bind obound]; try exact I. cbv zeta. unfold mget.
  destruct (mfind _ _) as [v|] eqn:E; [assert (v = 0) by (eapply Zh, mfind_In; exact E); subst v|]; steps.
Qed.
Lemma k3_DE h n it r : ztri h -> zte it -> List.Forall zte r -> length r <= n -> forall m j, m <= 6 + j -> obound (m3_DE h it r m) (6 + (9 + n + j)).
Proof.
  intros Zh Z F Hn m j L. unfold m3_DE.
  assert (E := owhile_bound 6 zte (fun it2 => (id1 it2 =? id1 it)%Z) (m3_E h it) 1 r (fun a q => k3_E h it a Zh Z q) F (m3_D it m) (9 + j) (k3_D it Z m j L)).
  destruct (ofor_while _ _ _ _); cbn [obound] in *; try exact I. lia.
Qed.
Lemma k3_loops h ds ts : ztri h -> List.Forall zde ds -> List.Forall zte ts ->
  obound (ofor_tails (m3_DE h) ts (for_tails (m3_A ts) ds n0)) (6 + (length ds * (4 + length ds * (6 + length ds) + length ts) + length ts * (9 + length ts))).
Proof.
  intros Zh F1 F2.
  assert (E1 := tails_bound 6 zde (m3_A ts) (length ds) _ ds (fun a r q Fr Hr => k3_A (length ds) ts a r q Fr Hr F2) F1 (le_n _) 0 0 ltac:(lia)).
  assert (E2 := otails_bound 6 zte (m3_DE h) (length ts) _ ts (fun a r q Fr Hr => k3_DE h (length ts) a r Zh q Fr Hr) F2 (le_n _) _ _ E1).
  cbn [n0 KN T] in *. destruct (ofor_tails _ _ _); cbn [obound] in *; try exact I. lia.
Qed.

Lemma k4_D id it : zde it -> B6 (m4_D id zrd zrd zrd it) 1.
Proof. intros Z m j L. zs. unfold m4_D. destruct (_ =? _)%Z; [lia|]. rewrite Z. cbv zeta. steps. Qed.
Lemma k4_C n id it r : zde it -> List.Forall zde r -> length r <= n -> B6 (m4_C id zrd zrd it r) (4 + n).
Proof.
  intros Z F Hn m j L. red in Z. unfold m4_C. destruct (_ =? _)%Z; [lia|]. rewrite Z. cbv zeta.
  assert (E := fun m j => each_bound 6 zde (m4_D id zrd zrd zrd) 1 r (fun a q => k4_D id a q) F m j).
  eapply Nat.le_trans; [eapply (E _ (4 + j)); steps|lia].
Qed.
Lemma k4_B0 : B6 (m4_B0 zrd zrd) 10.
Proof. intros m j L. unfold m4_B0. cbv zeta. steps. Qed.
Lemma k4_B n it it2 r : zde it -> zde it2 -> List.Forall zde r -> length r <= n -> B6 (m4_B it it2 r) (10 + n * (4 + n)).
Proof.
  intros Z Z2 F Hn m j L. red in Z, Z2. unfold m4_B. destruct (_ =? _)%Z; [nia|]. rewrite Z, Z2.
  assert (E := tails_bound 6 zde (m4_C (fst it) zrd zrd) n _ r (fun a r q Fr Hr => k4_C n (fst it) a r q Fr Hr) F Hn _ _ (k4_B0 m j L)).
  eapply Nat.le_trans; [exact E|nia].
Qed.
Lemma k4_F it it2 : zde it -> zte it2 -> B6 (m4_F it it2) 12.
Proof.
  intros Z Z2 m j L. zs. unfold m4_F. destruct (_ || _); [lia|]. rewrite Z, H, H0, H1. unfold m4_F0. cbv zeta. steps.
Qed.
Lemma k4_A0 : B6 (m4_A0 zrd) 5.
Proof. intros m j L. unfold m4_A0. cbv zeta. steps. Qed.
Lemma k4_A ds ts it : List.Forall zde ds -> List.Forall zte ts -> zde it ->
  B6 (m4_A ds ts it) (5 + length ds * (10 + length ds * (4 + length ds)) + 12 * length ts).
Proof.
  intros F1 F2 Z m j L. assert (Z' := Z). red in Z'. unfold m4_A. rewrite Z'. cbv zeta.
  assert (E1 := tails_bound 6 zde (m4_B it) (length ds) _ ds (fun a r q Fr Hr => k4_B (length ds) it a r Z q Fr Hr) F1 (le_n _) _ _ (k4_A0 m j L)).
  assert (E2 := each_bound 6 zte (m4_F it) 12 ts (fun a q => k4_F it a Z q) F2 _ _ E1).
  eapply Nat.le_trans; [exact E2|nia].
Qed.
Lemma k4_E0 : B6 (m4_E0 (N := KN) zrd zrd 0) 27.
Proof. intros m j L. unfold m4_E0. cbv zeta. steps. Qed.
Lemma k4_J (it : tentry KN) it2 it3 : val it = 0 -> zde it3 -> B6 (m4_J (N := KN) it it2 0 0 it3) 1.
Proof. intros V Z m j L. zs. unfold m4_J. cbv zeta. destruct (_ || _); [lia|]. rewrite Z, V. steps. Qed.
Lemma k4_L (it : tentry KN) it3 : val it = 0 -> zde it3 -> B6 (m4_L it zrd it3) 1.
Proof. intros V Z m j L. zs. unfold m4_L. cbv zeta. destruct (_ || _); [lia|]. rewrite Z, V. steps. Qed.
Lemma k4_G2 : B6 (m4_G2 (N := KN) zrd zrd zrd 0 0) 6. Proof. intros m j L. unfold m4_G2. cbv zeta. steps. Qed.
Lemma k4_G3 : B6 (m4_G3 (N := KN) zrd zrd zrd 0 0) 6. Proof. intros m j L. unfold m4_G3. cbv zeta. steps. Qed.
Lemma k4_H : B6 (m4_H (N := KN) zrd zrd 0 0 0) 6. Proof. intros m j L. unfold m4_H. cbv zeta. steps. Qed.
Lemma k4_G h ds it it2 r : ztri h -> List.Forall zde ds -> zte it -> zde it2 -> List.Forall zde r -> length r <= length ds ->
  B6 (m4_G h ds it it2 r) (18 + 2 * length ds).
Proof.
  intros Zh Fd Z Z2 F Hr m j L. red in Z2. destruct Z as (D1 & D2 & V). unfold m4_G. destruct (_ || _); [lia|]. cbv zeta. rewrite Z2, D1, D2.
  assert (EL := fun m j => each_bound 6 zde (m4_L it zrd) 1 r (fun a q => k4_L it a V q) F m j).
  assert (EJ := fun m j => each_bound 6 zde (m4_J it it2 (0 : KN) (0 : KN)) 1 ds (fun a q => k4_J it it2 a V q) Fd m j).
  rewrite V in *.
  destruct (hg_tri_find h (id1 it) (fst it2)) as [v2|] eqn:E2; [apply (ztri_find _ _ _ _ Zh) in E2; subst v2|];
    (destruct (hg_tri_find h (id2 it) (fst it2)) as [v3|] eqn:E3; [apply (ztri_find _ _ _ _ Zh) in E3; subst v3|]).
  - eapply Nat.le_trans; [eapply EL, EJ, k4_H, k4_G3, k4_G2, L|lia].
  - eapply Nat.le_trans; [eapply EL, k4_G2, L|lia].
  - eapply Nat.le_trans; [eapply EL, k4_G3, L|lia].
  - eapply Nat.le_trans; [eapply EL, L|lia].
Qed.
Lemma k4_I h (it : tentry KN) it2 : ztri h -> val it = 0 -> zte it2 -> B6 (m4_I h it it2) 3.
Proof.
  intros Zh V Z m j L. destruct Z as (_ & _ & V2). unfold m4_I. destruct (_ || _); [lia|]. cbv zeta. rewrite V, V2.
  destruct (hg_tri_find h (id1 it) (id1 it2)) as [a|] eqn:E1; [apply (ztri_find _ _ _ _ Zh) in E1; subst a|];
  destruct (hg_tri_find h (id2 it) (id2 it2)) as [b|] eqn:E2; try (apply (ztri_find _ _ _ _ Zh) in E2; subst b);
  destruct (hg_tri_find h (id1 it) (id2 it2)) as [c|] eqn:E3; try (apply (ztri_find _ _ _ _ Zh) in E3; subst c);
  destruct (hg_tri_find h (id2 it) (id1 it2)) as [d|] eqn:E4; try (apply (ztri_find _ _ _ _ Zh) in E4; subst d); steps.
Qed.
Lemma k4_E h ds ts it : ztri h -> List.Forall zde ds -> List.Forall zte ts -> zte it ->
  B6 (m4_E h ds ts it) (27 + length ds * (18 + 2 * length ds) + 3 * length ts).
Proof.
  intros Zh F1 F2 Z m j L. assert (Z' := Z). destruct Z' as (D1 & D2 & V). unfold m4_E. rewrite D1, D2, V. cbv zeta.
  assert (E1 := tails_bound 6 zde (m4_G h ds it) (length ds) _ ds (fun a r q Fr Hr => k4_G h ds it a r Zh F1 Z q Fr Hr) F1 (le_n _) _ _ (k4_E0 m j L)).
  assert (E2 := each_bound 6 zte (m4_I h it) 3 ts (fun a q => k4_I h it a Zh V q) F2 _ _ E1).
  eapply Nat.le_trans; [exact E2|nia].
Qed.
Lemma k4_loops h ds ts : ztri h -> List.Forall zde ds -> List.Forall zte ts ->
  m4_loops h ds ts <= 6 + (length ds * (5 + length ds * (10 + length ds * (4 + length ds)) + 12 * length ts) +
    length ts * (27 + length ds * (18 + 2 * length ds) + 3 * length ts)).
Proof.
  intros Zh F1 F2. unfold m4_loops.
  assert (E1 := each_bound 6 zde (m4_A ds ts) _ ds (fun a q => k4_A ds ts a F1 F2 q) F1 0 0 ltac:(lia)).
  assert (E2 := each_bound 6 zte (m4_E h ds ts) _ ts (fun a q => k4_E h ds ts a Zh F1 F2 q) F2 _ _ E1).
  cbn [n0 KN T] in *. lia.
Qed.

(** ** Storage that holds only zeros *)
Definition zdiag (d : diag KN) : Prop := dgrad d = 0 /\ dhh d = 0 /\ (forall p, dmom d = Some p -> p = zm).
Definition zhg (h : hessgrad KN) : Prop := hg_ok h /\ ztri h /\ forall k d, In (k, d) (diagmap h) -> zdiag d.
Lemma zread d r : zdiag d -> read_diag d = Ret r -> r = zrd.
Proof.
  intros (A & B & C) E. unfold read_diag in E. destruct (dmom d) as [p|] eqn:Ep; [|discriminate]. injection E as <-. rewrite A, B, (C p eq_refl). reflexivity.
Qed.
Lemma F2_Forall {A B} (R : A -> B -> Prop) (P : A -> Prop) (Q : B -> Prop) l l' : (forall a b, P a -> R a b -> Q b) ->
  List.Forall P l -> Forall2 R l l' -> List.Forall Q l'.
Proof. intros H F F2. revert F. induction F2; intro F; [constructor|]. inversion F; subst. constructor; eauto. Qed.
Lemma F2_len {A B} (R : A -> B -> Prop) l l' : Forall2 R l l' -> length l' = length l.
Proof. induction 1; cbn; congruence. Qed.
Lemma zentries h ds : zhg h -> omapM read_entry (diagmap h) = Ret ds -> List.Forall zde ds /\ length ds = length (diagmap h).
Proof.
  intros (OK & _ & Z) E. destruct (read_entries h OK) as (ds' & E' & F). rewrite E in E'. injection E' as <-. split; [|eapply F2_len; exact F].
  eapply F2_Forall; [| |exact F]; [|apply (Forall_forall (fun kd => zdiag (snd kd))); intros [k d] Hk; eapply Z, Hk].
  intros [k d] b Hz Er. unfold read_entry in Er. cbn [fst snd] in *. destruct (read_diag d) as [r| | |] eqn:Ed; try discriminate. injection Er as <-.
  red. cbn. now apply (zread d).
Qed.
Lemma tpairs_len T (d : list (Z * diag KN)) : length (tpairs T d) <= length d * length d.
Proof. induction d as [|[i di] d IH]; cbn [tpairs length]; [lia|]. rewrite app_length, map_length. nia. Qed.
Lemma tpairs_val (T : list ((Z * Z) * KN)) (d : list (Z * diag KN)) v : (forall k x, In (k, x) T -> x = 0) -> In v (tpairs T d) -> vval v = 0.
Proof.
  intro H. induction d as [|[i di] d IH]; cbn [tpairs]; intro Hv; [destruct Hv|]. apply in_app_iff in Hv as [Hv|Hv]; [|auto].
  apply in_map_iff in Hv as ([j dj] & <- & _). cbn [vval]. unfold mget. destruct (mfind _ _) as [x|] eqn:E; [|reflexivity]. eapply H, mfind_In, E.
Qed.
Lemma tri_len (h : hessgrad KN) : hg_ok h -> length (trimap h) <= length (diagmap h) * length (diagmap h).
Proof.
  intros (SD & ST & HK & _). rewrite <- (map_length fst (trimap h)), <- (map_length fst (diagmap h)). rewrite <- prod_length.
  apply NoDup_incl_length; [now apply msorted_NoDup|]. intros [i j] Hij. destruct (HK i j Hij) as (_ & A & B). now apply in_prod.
Qed.
Lemma zvisits h skip ts0 ts : zhg h -> tri_visits h skip = Ret ts0 -> omapM read_visit ts0 = Ret ts ->
  List.Forall zte ts /\ length ts <= length (diagmap h) * length (diagmap h).
Proof.
  intros (OK & Zt & Z) E1 E2. destruct (read_visits h skip OK) as (a & b & E1' & E2' & F & E0). rewrite E1 in E1'. injection E1' as <-.
  rewrite E2 in E2'. injection E2' as <-. assert (Q : List.Forall (fun v => zdiag (vd1 v) /\ zdiag (vd2 v) /\ vval v = 0) ts0).
  { apply Forall_forall. intros v Hv. rewrite E0 in Hv. destruct skip.
    - apply in_map_iff in Hv as ([[i j] x] & <- & Hx). destruct OK as (SD & _ & HK & _). destruct (HK i j (in_map fst _ _ Hx)) as (_ & Hi & Hj).
      unfold tvisit. cbn [vd1 vd2 vval fst snd].
      apply in_map_iff in Hi as ([i' di] & Ei & Hi). apply in_map_iff in Hj as ([j' dj] & Ej & Hj). cbn [fst] in *. subst i' j'.
      rewrite (mget_In _ _ di _ SD Hi), (mget_In _ _ dj _ SD Hj). split; [eapply Z, Hi|]. split; [eapply Z, Hj|]. eapply Zt, Hx.
    - assert (I := tpairs_In _ _ _ Hv). split; [eapply Z, I|]. split; [eapply Z, I|]. eapply tpairs_val; [exact Zt|exact Hv]. }
  split.
  - eapply F2_Forall; [|exact Q|exact F]. intros v t (A & B & C) Er. unfold read_visit in Er.
    destruct (read_diag (vd1 v)) as [d1| | |] eqn:D1; try discriminate. destruct (read_diag (vd2 v)) as [d2| | |] eqn:D2; try discriminate.
    injection Er as <-. split; [exact (zread _ _ A D1)|]. split; [exact (zread _ _ B D2)|exact C].
  - rewrite (F2_len _ _ _ F), E0. destruct skip; [rewrite map_length; now apply tri_len|apply tpairs_len].
Qed.

Lemma k_m2 h m : zhg h -> let n := length (diagmap h) in compute_m2 h = Ret m -> m <= 6 + 3 * n + n * n.
Proof.
  intros Z n E. unfold compute_m2 in E. destruct (omapM read_entry (diagmap h)) as [ds| | |] eqn:E1; try discriminate. cbn [bind] in E.
  destruct (tri_visits h false) as [ts0| | |] eqn:E2; try discriminate. cbn [bind] in E.
  destruct (omapM read_visit ts0) as [ts| | |] eqn:E3; try discriminate. injection E as <-.
  destruct (zentries h ds Z E1) as [F1 L1]. destruct (zvisits h false ts0 ts Z E2 E3) as [F2 L2]. assert (K := k2_loops ds ts F1 F2). fold n in L1, L2. lia.
Qed.
Lemma k_m3 h m : zhg h -> let n := length (diagmap h) in compute_m3 h = Ret m -> m <= 6 + 4 * n + 15 * n * n + 2 * n * n * n + n * n * n * n.
Proof.
  intros Z n E. unfold compute_m3 in E. destruct (omapM read_entry (diagmap h)) as [ds| | |] eqn:E1; try discriminate. cbn [bind] in E.
  destruct (tri_visits h true) as [ts0| | |] eqn:E2; try discriminate. cbn [bind] in E.
  destruct (omapM read_visit ts0) as [ts| | |] eqn:E3; try discriminate. cbn [bind] in E.
  destruct (zentries h ds Z E1) as [F1 L1]. destruct (zvisits h true ts0 ts Z E2 E3) as [F2 L2].
  assert (K := k3_loops h ds ts (proj1 (proj2 Z)) F1 F2). rewrite E in K. cbn [obound] in K. fold n in L1, L2. rewrite L1 in K.
  set (t := length ts) in *. assert (n * t <= n * (n * n)) by (apply Nat.mul_le_mono_l; exact L2). assert (t * t <= (n * n) * (n * n)) by (apply Nat.mul_le_mono; exact L2). lia.
Qed.
Lemma k_m4 h m : zhg h -> let n := length (diagmap h) in compute_m4 h = Ret m -> m <= 6 + 5 * n + 37 * n * n + 34 * n * n * n + 6 * n * n * n * n.
Proof.
  intros Z n E. unfold compute_m4 in E. destruct (omapM read_entry (diagmap h)) as [ds| | |] eqn:E1; try discriminate. cbn [bind] in E.
  destruct (tri_visits h true) as [ts0| | |] eqn:E2; try discriminate. cbn [bind] in E.
  destruct (omapM read_visit ts0) as [ts| | |] eqn:E3; try discriminate. injection E as <-.
  destruct (zentries h ds Z E1) as [F1 L1]. destruct (zvisits h true ts0 ts Z E2 E3) as [F2 L2].
  assert (K := k4_loops h ds ts (proj1 (proj2 Z)) F1 F2). fold n in L1, L2. rewrite L1 in K.
  set (t := length ts) in *. assert (n * t <= n * (n * n)) by (apply Nat.mul_le_mono_l; exact L2). assert (t * t <= (n * n) * (n * n)) by (apply Nat.mul_le_mono; exact L2).
  assert (n * n * t <= n * n * (n * n)) by (apply Nat.mul_le_mono_l; exact L2). lia.
Qed.

(** ** Queries *)
Lemma k_u1 (x : ureal2 KN) m : zhg (u2hg x) -> u2_m x 1 = Ret m -> m <= length (diagmap (u2hg x)).
Proof.
  intros (_ & _ & Z) E. unfold u2_m, update_mom, compute_mom in E. cbn in E. injection E as <-. apply k_m1. intros k d Hk. now apply (Z k d).
Qed.
Lemma u2_m_split {N : Num} (x : ureal2 N) n m : (1 <= n <= 4)%nat -> u2_m x (Z.of_nat n) = Ret m ->
  match n with
  | 1 => compute_m1 (u2hg x) = m
  | 2 => exists m2, u2_m x 1 = Ret (compute_m1 (u2hg x)) /\ compute_m2 (u2hg x) = Ret m2 /\
           m = nsub m2 (nmul (compute_m1 (u2hg x)) (compute_m1 (u2hg x)))
  | 3 => exists m2 m3, u2_m x 2 = Ret m2 /\ compute_m3 (u2hg x) = Ret m3 /\ let m1 := compute_m1 (u2hg x) in
           m = nsub m3 (nmul m1 (nadd (nmul (nofZ 3) m2) (nmul m1 m1)))
  | _ => exists m2 m3 m4, u2_m x 2 = Ret m2 /\ u2_m x 3 = Ret m3 /\ compute_m4 (u2hg x) = Ret m4 /\ let m1 := compute_m1 (u2hg x) in
           m = nsub m4 (nmul m1 (nadd (nmul (nofZ 4) m3) (nmul m1 (nadd (nmul (nofZ 6) m2) (nmul m1 m1)))))
  end.
Proof.
  intros Hn. assert (H : n = 1 \/ n = 2 \/ n = 3 \/ n = 4) by lia.
  destruct H as [-> | [-> | [-> | ->]]]; vm_compute Z.of_nat; unfold u2_m, update_mom, compute_mom;
    cbn [Z.leb Z.eqb andb Z.compare Pos.compare Pos.compare_cont assert_ bind Pos.eqb Z.add Pos.add Pos.succ]; intro E.
  - now injection E as <-.
  - destruct (compute_m2 (u2hg x)) as [m2| | |]; cbn [bind] in *; try discriminate. injection E as <-. eauto.
  - destruct (compute_m2 (u2hg x)) as [m2| | |]; cbn [bind] in *; try discriminate.
    destruct (compute_m3 (u2hg x)) as [m3| | |]; cbn [bind] in *; try discriminate. injection E as <-. do 2 eexists. repeat split.
  - destruct (compute_m2 (u2hg x)) as [m2| | |]; cbn [bind] in *; try discriminate.
    destruct (compute_m3 (u2hg x)) as [m3| | |]; cbn [bind] in *; try discriminate.
    destruct (compute_m4 (u2hg x)) as [m4| | |]; cbn [bind] in *; try discriminate. injection E as <-. do 3 eexists. repeat split.
Qed.
Lemma k_u x n m : (1 <= n <= 4)%nat -> zhg (u2hg x) -> u2_m x (Z.of_nat n) = Ret m -> m <= depth n (length (diagmap (u2hg x))).
Proof.
  intros Hn Z. set (i := length (diagmap (u2hg x))).
  assert (K1 : compute_m1 (u2hg x) <= i) by (apply k_m1; intros k d Hk; exact (proj1 (proj2 (proj2 (proj2 Z) k d Hk)))).
  assert (K2 : forall m, u2_m x 2 = Ret m -> m <= 7 + 3 * i + i * i).
  { intros q E. destruct (u2_m_split x 2 q ltac:(lia) E) as (m2 & _ & E2 & ->). apply k_m2 in E2; [|exact Z]. fold i in E2. cbn [nsub nmul KN]. lia. }
  assert (K3 : forall m, u2_m x 3 = Ret m -> m <= 11 + 4 * i + 15 * i * i + 2 * i * i * i + i * i * i * i).
  { intros q E. destruct (u2_m_split x 3 q ltac:(lia) E) as (m2 & m3 & E2 & E3 & ->). apply K2 in E2. apply k_m3 in E3; [|exact Z]. fold i in E3.
    assert (i <= i * i) by nia. cbn -[Nat.mul Nat.max compute_m1]. lia. }
  assert (H : n = 1 \/ n = 2 \/ n = 3 \/ n = 4) by lia. intro E. destruct H as [-> | [-> | [-> | ->]]].
  - apply (u2_m_split x 1 m ltac:(lia)) in E. subst m. exact K1.
  - apply K2. exact E.
  - apply K3. exact E.
  - destruct (u2_m_split x 4 m ltac:(lia) E) as (m2 & m3 & m4 & E2 & E3 & E4 & ->). apply K2 in E2. apply K3 in E3. apply k_m4 in E4; [|exact Z]. fold i in E4.
    assert (i <= i * i) by nia. assert (0 <= i * i * i) by lia.
    unfold depth. cbn -[Nat.mul Nat.max compute_m1]. lia.
Qed.
Lemma k_n x p m : zhg (u2hg x) -> u2mu x = 0 -> u2_n p x = Ret m -> m <= depth_mean (length (diagmap (u2hg x))).
Proof.
  intros Z M E. unfold u2_n in E. destruct (u2_m x 1) as [m1| | |] eqn:E1; cbn [bind] in E; try discriminate. injection E as <-.
  apply k_u1 in E1; [|exact Z]. unfold depth_mean. rewrite M. destruct p; cbn -[Nat.max]; lia.
Qed.

Lemma kc_A0 p da db : zdiag da -> zdiag db -> p = zm -> forall m j, m <= 6 + j -> c2_A0 p da db m <= 6 + (4 + j).
Proof.
  intros (A & B & _) (C & D & _) -> m j L. unfold c2_A0. rewrite A, B, C, D. cbv zeta. steps.
Qed.
Lemma kc_A (a : list (Z * diag KN)) : forall (b : list (Z * diag KN)), (forall k d, In (k, d) a -> zdiag d) -> (forall k d, In (k, d) b -> zdiag d) ->
  forall m j, m <= 6 + j -> obound (c2_A a b m) (6 + (4 * (length a + length b) + j)).
Proof.
  induction a as [|[ia da] a IHa]; [intros b _ _ m j L; destruct b; cbn [c2_A obound length]; lia|].
  induction b as [|[ib db] b IHb]; intros Za Zb m j L; [cbn [c2_A obound length]; lia|]. cbn [c2_A].
  assert (Za' : forall k d, In (k, d) a -> zdiag d) by (intros k d Hd; apply (Za k d); now right).
  assert (Zb' : forall k d, In (k, d) b -> zdiag d) by (intros k d Hd; apply (Zb k d); now right).
  match goal with |- obound (bind ?e _) _ => assert (P : obound e (6 + (4 + j))); [|destruct e as [m'| | |]] end.
  { destruct (ia =? ib)%Z; [|cbn [obound]; lia]. assert (Zd := Za ia da (or_introl eq_refl)). destruct (dmom da) as [p|] eqn:Ep; [|exact I].
    cbn [obound]. apply kc_A0; [exact Zd|exact (Zb ib db (or_introl eq_refl))|now apply Zd|exact L]. }
  all: cbn [bind obound] in *; try exact I.
  assert (W : forall o A B, obound o (6 + A) -> A <= B -> obound o (6 + B)) by (intros [] A B; cbn [obound]; auto; lia).
  cbn [length]. destruct (ia <=? ib)%Z; [destruct (ib <=? ia)%Z|].
  - eapply W; [apply (IHa b Za' Zb' m' _ P)|lia].
  - eapply W; [apply (IHa ((ib, db) :: b) Za' Zb m' _ P)|cbn [length]; lia].
  - eapply W; [apply (IHb Za Zb' m' _ P)|cbn [length]; lia].
Qed.
Lemma kc_B (a : list (visit KN)) : forall (b : list (visit KN)), (forall v, In v a -> vval v = 0) -> (forall v, In v b -> vval v = 0) ->
  forall m j, m <= 6 + j -> obound (c2_B a b m) (6 + (length a + length b + j)).
Proof.
  induction a as [|va a IHa]; [intros b _ _ m j L; destruct b; cbn [c2_B obound length]; lia|].
  induction b as [|vb b IHb]; intros Za Zb m j L; [cbn [c2_B obound length]; lia|]. rewrite c2_B_cons.
  assert (Za' : forall v, In v a -> vval v = 0) by (intros v Hd; apply (Za v); now right).
  assert (Zb' : forall v, In v b -> vval v = 0) by (intros v Hd; apply (Zb v); now right).
  destruct (assert_ (vid1 va <? vid2 va)%Z); cbn [bind obound]; try exact I. destruct (assert_ (vid1 vb <? vid2 vb)%Z); cbn [bind obound]; try exact I.
  cbv zeta. rewrite (Za va (or_introl eq_refl)), (Zb vb (or_introl eq_refl)).
  match goal with |- context [if peqb _ _ then ?q else m] => set (m' := if peqb (vid va) (vid vb) then q else m) end.
  assert (P : m' <= 6 + (1 + j)) by (unfold m'; destruct (peqb _ _); [steps|lia]).
  assert (W : forall o A B, obound o (6 + A) -> A <= B -> obound o (6 + B)) by (intros [] A B; cbn [obound]; auto; lia).
  cbn [length]. destruct (pleb (vid va) (vid vb)); [destruct (pleb (vid vb) (vid va))|].
  - eapply W; [apply (IHa b Za' Zb' m' _ P)|lia].
  - eapply W; [apply (IHa (vb :: b) Za' Zb m' _ P)|cbn [length]; lia].
  - eapply W; [apply (IHb Za Zb' m' _ P)|cbn [length]; lia].
Qed.
Lemma kc_C (ha hb : hessgrad KN) : (forall k d, In (k, d) (diagmap ha) -> zdiag d) -> (forall k d, In (k, d) (diagmap hb) -> zdiag d) ->
  forall m j, m <= 6 + j -> c2_C ha hb m <= 6 + (length (diagmap ha) * length (diagmap hb) + j).
Proof.
  intros Za Zb m j L. unfold c2_C.
  apply (each_bound 6 (fun kd : Z * diag KN => zdiag (snd kd)) _ (length (diagmap hb))).
  - intros a Qa m' j' L'. rewrite <- (Nat.mul_1_r (length (diagmap hb))).
    apply (each_bound 6 (fun kd : Z * diag KN => zdiag (snd kd)) _ 1); [|apply Forall_forall; intros [k d] Hk; eapply Zb, Hk|exact L'].
    intros b Qb m2 j2 L2. destruct (negb _); [|lia]. destruct Qa as (_ & -> & _), Qb as (_ & -> & _). steps.
  - apply Forall_forall; intros [k d] Hk; eapply Za, Hk.
  - exact L.
Qed.
Lemma k_cov x y m : zhg (u2hg x) -> zhg (u2hg y) -> u2_cov x y = Ret m -> m <= depth_cov (length (diagmap (u2hg x))) (length (diagmap (u2hg y))).
Proof.
  intros Zx Zy E. set (i := length (diagmap (u2hg x))). set (j := length (diagmap (u2hg y))). unfold u2_cov in E.
  destruct (compute_c2 (u2hg x) (u2hg y)) as [c| | |] eqn:Ec; cbn [bind] in E; try discriminate.
  destruct (u2_m x 1) as [mx| | |] eqn:Ex; cbn [bind] in E; try discriminate. destruct (u2_m y 1) as [my| | |] eqn:Ey; cbn [bind] in E; try discriminate.
  injection E as <-. apply k_u1 in Ex, Ey; try assumption. fold i in Ex. fold j in Ey.
  unfold compute_c2 in Ec. destruct Zx as (Ox & Tx & Zx), Zy as (Oy & Ty & Zy).
  assert (KA := kc_A (diagmap (u2hg x)) (diagmap (u2hg y)) Zx Zy 0 0 ltac:(lia)). cbn [n0 KN] in Ec.
  destruct (c2_A _ _ _) as [m1| | |]; cbn [bind obound] in Ec, KA; try discriminate.
  rewrite (tri_visits_skip _ Ox), (tri_visits_skip _ Oy) in Ec. cbn [bind] in Ec.
  assert (V : forall (h : hessgrad KN), ztri h -> forall v, In v (map (tvisit (diagmap h)) (trimap h)) -> vval v = 0).
  { intros h Zh v Hv. apply in_map_iff in Hv as ([k q] & <- & Hk). cbn [tvisit vval snd]. eapply Zh, Hk. }
  assert (KB := kc_B _ _ (V _ Tx) (V _ Ty) m1 _ KA). destruct (c2_B _ _ _) as [m2| | |]; cbn [bind obound] in Ec, KB; try discriminate.
  injection Ec as <-. assert (KC := kc_C (u2hg x) (u2hg y) Zx Zy m2 _ KB). rewrite !map_length in KC.
  assert (Lx := tri_len _ Ox). assert (Ly := tri_len _ Oy). fold i in Lx, KC. fold j in Ly, KC.
  unfold depth_cov. cbn [nsub nmul KN]. lia.
Qed.
