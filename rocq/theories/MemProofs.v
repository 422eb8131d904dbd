(** * MemProofs: the memory used by UReal *)

From Coq Require Import List ZArith Bool Reals Lra Lia.
From Verif Require Import Base Num Map UReal World Sums SpecLin SpecObs SpecOrder URealFacts URealR URealProofs URealProofs2
  Alloc SpecAlloc AllocProofs SpecMem.
Import ListNotations.

Section Gen.
  Context {N : Num}.
  Local Open Scope num_scope.
  Notation smap := (list (Z * N)).

  Lemma mset_len i (v : N) (m : smap) :
    length (mset i v m) = match mfind i m with Some _ => length m | None => S (length m) end.
  Proof.
    induction m as [|[j u] m IH]; [reflexivity|]. cbn [mset mfind].
    destruct (kcmp i j); cbn [length]; auto. rewrite IH. destruct (mfind i m); reflexivity.
  Qed.
  Lemma mupd_len i f (m : smap) :
    length (mupd n0 i f m) = match mfind i m with Some _ => length m | None => S (length m) end.
  Proof. apply mset_len. Qed.
  Lemma add_len_ge d s : forall z : smap, (length z <= length (u_add_scaled d s z))%nat.
  Proof.
    unfold u_add_scaled. induction s as [|[i c] s IH]; intro z; cbn [fold_left]; [lia|].
    eapply Nat.le_trans; [|apply IH]. rewrite mupd_len. destruct (mfind _ z); lia.
  Qed.

  (** What happened to the budget: [m] before, [full] if there is enough memory. *)
  Definition exact_upd (k : nat) (m full : smap) (r : smap * option nat) : Prop :=
    match r with
    | (z, Some k') => z = full /\ (k' + length full = k + length m)%nat
    | (_, None) => (k + length m < length full)%nat
    end.
  Lemma a_upd_exact k i f (m : smap) : exact_upd k m (mupd n0 i f m) (a_upd k i f m).
  Proof.
    unfold a_upd, exact_upd. assert (E := mupd_len i f m).
    destruct (mfind i m); [split; [reflexivity|lia]|]. destruct k; [lia|]. split; [reflexivity|lia].
  Qed.
  Lemma a_add_exact d s : forall k (z : smap), exact_upd k z (u_add_scaled d s z) (a_add_scaled k d s z).
  Proof.
    induction s as [|[i c] s IH]; intros k z; cbn [a_add_scaled].
    - split; reflexivity.
    - change (u_add_scaled d ((i, c) :: s) z) with (u_add_scaled d s (mupd n0 i (fun p => p + d * c) z)).
      assert (E := a_upd_exact k i (fun p => p + d * c) z).
      destruct (a_upd k i (fun p => p + d * c) z) as [z1 [k1|]]; cbn [exact_upd] in E.
      + destruct E as [-> E]. specialize (IH k1 (mupd n0 i (fun p => p + d * c) z)).
        destruct (a_add_scaled k1 d s _) as [z2 [k2|]]; cbn [exact_upd] in *; [|lia]. split; [apply IH|]. destruct IH. lia.
      + cbn [exact_upd]. assert (H := add_len_ge d s (mupd n0 i (fun p => p + d * c) z)). lia.
  Qed.

  Lemma a_assign_exact k al (t x : ureal N) mu dt dx :
    (snd (a_assign_gen k al t x mu dt dx) = None <->
      (k + length (usigma t) < length (usigma (u_assign_gen al t x mu dt dx)))%nat) /\
    (length (usigma t) <= length (usigma (u_assign_gen al t x mu dt dx)))%nat.
  Proof.
    unfold a_assign_gen, u_assign_gen. destruct al.
    { unfold u_binary_assign_self. cbn [usigma snd]. unfold mmap. rewrite map_length. split; [|lia].
      split; [discriminate|lia]. }
    unfold a_binary_assign, u_binary_assign.
    set (f0 := if (0 <? uid t)%Z then mset (uid t) (usdev t) (usigma t) else usigma t).
    set (q := if (0 <? uid t)%Z then a_upd _ _ _ _ else _).
    assert (Q : exact_upd k (usigma t) f0 q).
    { unfold q, f0. destruct (0 <? uid t)%Z; [apply (a_upd_exact k (uid t) (fun _ => usdev t))|]. split; reflexivity. }
    assert (L0 : (length (usigma t) <= length f0)%nat).
    { unfold f0. destruct (0 <? uid t)%Z; [|lia]. rewrite mset_len. destruct (mfind _ _); lia. }
    clearbody q.
    set (g1 := if negb (dt =? n1) then mmap (fun v => v * dt) f0 else f0).
    assert (L1 : length g1 = length f0).
    { unfold g1, mmap. destruct (negb _); [apply map_length|reflexivity]. }
    set (full := if (0 <? uid x)%Z then mupd n0 (uid x) (fun p => p + dx * usdev x) g1
                 else if (uid x <? 0)%Z then u_add_scaled dx (usigma x) g1 else g1).
    cbn [usigma].
    assert (L2 : (length g1 <= length full)%nat).
    { unfold full. destruct (0 <? uid x)%Z; [rewrite mupd_len; destruct (mfind _ _); lia|].
      destruct (uid x <? 0)%Z; [apply add_len_ge|lia]. }
    split; [|lia].
    destruct q as [s0 [k0|]]; cbn [exact_upd] in Q.
    - destruct Q as [-> Q]. fold g1.
      set (p := if (0 <? uid x)%Z then a_upd _ _ _ _ else _).
      assert (P : exact_upd k0 g1 full p).
      { unfold p, full. destruct (0 <? uid x)%Z; [apply a_upd_exact|].
        destruct (uid x <? 0)%Z; [apply a_add_exact|]. split; reflexivity. }
      clearbody p. destruct p as [s2 [k2|]]; cbn [exact_upd] in P; cbn [snd].
      + destruct P as [_ P]. split; [discriminate|lia].
      + split; [lia|reflexivity].
    - cbn [snd]. split; [lia|reflexivity].
  Qed.

  Lemma a_result_exact k (w : world N) v o : snd (a_result k w v o) = None <-> (k < a_nodes o)%nat.
  Proof.
    unfold a_result. destruct (Nat.leb_spec (a_nodes o) k).
    - destruct (assign_result w v o). cbn. split; [discriminate|lia].
    - cbn. split; [lia|reflexivity].
  Qed.
  Lemma a_store_exact (w : world N) v r : snd (a_store w v r) = None <-> snd r = None.
  Proof. unfold a_store. cbn. destruct (snd r); intuition congruence. Qed.
  Lemma copy_exact L k (t x : ureal N) : good_map_lib L -> usigma t = [] ->
    snd (a_copy_assign L k false t x) = None <-> (k < length (usigma x))%nat.
  Proof.
    intros G E. unfold a_copy_assign. rewrite E. destruct (G [] (usigma x)) as (_ & -> & _).
    destruct (Nat.leb_spec (length (usigma x)) k); cbn [snd]; [split; [discriminate|lia]|split; [lia|reflexivity]].
  Qed.
  Lemma copy_enough L k al (t x : ureal N) : good_map_lib L -> (length (usigma x) <= k)%nat ->
    snd (a_copy_assign L k al t x) <> None.
  Proof.
    intros G H. unfold a_copy_assign. destruct al; [discriminate|]. destruct (G (usigma t) (usigma x)) as (C & _).
    destruct (Nat.leb_spec (cp_count L (usigma t) (usigma x)) k); [discriminate|lia].
  Qed.
  Lemma binary_uid (x y z : ureal N) mu dx dy : u_binary x y mu dx dy = Ret z -> uid z = invalid_id.
  Proof. unfold u_binary. destruct (if _ : bool then _ else _); cbn [bind]; [|discriminate ..]. intros [= <-]. reflexivity. Qed.
  Lemma nary_uid (xs : list (ureal N)) mu dxs z : u_nary xs mu dxs = Ret z -> uid z = invalid_id.
  Proof. unfold u_nary. destruct (u_nary_loop xs dxs []); cbn [bind]; [|discriminate ..]. intros [= <-]. reflexivity. Qed.
End Gen.

(** The variables without nodes are those of SpecMem.heap_free. *)
Definition winv (w : world RN) (hf : nat -> bool) : Prop :=
  forall v, if hf v then (0 <= uid (w_var w v))%Z else (uid (w_var w v) < 0)%Z.

Lemma winv_set w hf v z (b : bool) : winv w hf -> (if b then (0 <= uid z)%Z else (uid z < 0)%Z) ->
  winv (w_set w v z) (fun u => if Nat.eqb u v then b else hf u).
Proof. intros H Hz u. cbn. unfold upd. destruct (Nat.eqb u v); [exact Hz|apply H]. Qed.
Lemma winv_keep w hf v z : winv w hf -> uid z = uid (w_var w v) -> winv (w_set w v z) hf.
Proof.
  intros H Hz u. cbn. unfold upd. destruct (Nat.eqb_spec u v); [subst; rewrite Hz; apply H|apply H].
Qed.

Lemma unary_uid (x : ureal RN) mu dx : uid (u_unary x mu dx) = uid x.
Proof. unfold u_unary. destruct (0 <? uid x)%Z; [reflexivity|]. destruct (uid x <? 0)%Z; reflexivity. Qed.

Lemma winv_exec w sw hf c : wrep w sw -> nary_ok c -> (is_new c = true -> w_last w + 1 < maxid)%Z -> (w_last w < maxid)%Z ->
  winv w hf -> winv (fst (exec w c)) (heap_free_after hf c).
Proof.
  intros W HN B1 B2 H.
  assert (D : (invalid_id < 0)%Z) by reflexivity.
  destruct (exec_sim w sw c W HN B1 B2) as (_ & _ & _ & _ & O).
  assert (Bin : forall v x y mu dx dy,
    match snd (assign_result w v (u_binary (w_var w x) (w_var w y) mu dx dy)) with UB | Assert | Throw _ => False | Ret _ => True end ->
    winv (fst (assign_result w v (u_binary (w_var w x) (w_var w y) mu dx dy))) (fun u => if Nat.eqb u v then false else hf u)).
  { intros v x y mu dx dy. destruct (u_binary _ _ _ _ _) as [z| | |] eqn:E; cbn; try tauto. intros _.
    apply winv_set; [exact H|]. rewrite (binary_uid _ _ _ _ _ _ E). exact D. }
  assert (Asg : forall v x mu dt dx, winv (w_set w v (u_assign_gen (Nat.eqb v x) (w_var w v) (w_var w x) mu dt dx))
     (if Nat.eqb v x then hf else fun u => if Nat.eqb u v then false else hf u)).
  { intros v x mu dt dx. unfold u_assign_gen. destruct (Nat.eqb v x).
    - apply winv_keep; [exact H|reflexivity].
    - apply winv_set; [exact H|]. exact D. }
  assert (One : forall v x z, uid z = uid (w_var w x) -> winv (w_set w v z) (fun u => if Nat.eqb u v then hf x else hf u)).
  { intros v x z E. apply winv_set; [exact H|]. rewrite E. apply H. }
  assert (T : forall o : outcome unit, match o with Ret _ => True | Throw e => e = InvalidArgument /\ (exists v n s, c = CNew v n s /\ s < 0)%R
     | UB | Assert => False end -> is_new c = false -> match o with UB | Assert | Throw _ => False | Ret _ => True end).
  { intros [| | |]; auto. intros (_ & v & n & s & -> & _). discriminate. }
  assert (O' := fun E => T _ O E). clear T O.
  destruct c; cbn [exec heap_free_after];
    try (apply Asg); try (apply One; first [reflexivity|apply unary_uid]);
    try (apply Bin; exact (O' eq_refl)).
  - (* CNew *)
    destruct W as (_ & P & _). specialize (B1 eq_refl). unfold u_new. assert (E : wrap32 (w_last w + 1) = (w_last w + 1)%Z) by (unfold wrap32, maxid in *; rewrite Z.mod_small; lia). rewrite E. cbn [usdev nltb RN n0].
    destruct (Rltb_spec s 0), (Rlt_dec s 0); try lra; cbn [assign_result fst].
    + intro u. apply H.
    + apply (winv_set (mkW (w_last w + 1) (w_var w))); [intro u; apply H|]. cbn [uid]. lia.
  - apply winv_set; [exact H|]. cbn. lia.
  - apply winv_set; [exact H|]. cbn. lia.
  - specialize (O' eq_refl). cbn [exec] in O'. destruct (u_nary _ _ _) as [z| | |] eqn:E; cbn in O' |- *; try tauto.
    apply winv_set; [exact H|]. rewrite (nary_uid _ _ _ _ E). exact D.
  - apply winv_keep; [exact H|]. unfold u_s_caching. destruct (0 <=? uid _)%Z; [reflexivity|]. cbn [snd]. destruct (nltb _ _); reflexivity.
  - apply winv_keep; [exact H|]. unfold u_var_caching. destruct (0 <=? uid _)%Z; [reflexivity|]. cbn [snd]. destruct (nltb _ _); reflexivity.
Qed.

Lemma winv_run cs : forall w sw hf, wrep w sw -> List.Forall nary_ok cs ->
  (w_last w + Z.of_nat (count_new cs) < maxid)%Z -> winv w hf ->
  forall w', run w cs = Ret w' -> winv w' (fold_left heap_free_after cs hf).
Proof.
  induction cs as [|c cs IH]; intros w sw hf W F B H w' E.
  - injection E as <-. exact H.
  - inversion F as [|? ? Fc Fcs]; subst.
    assert (C : Z.of_nat (count_new (c :: cs))
                = ((if is_new c then 1 else 0) + Z.of_nat (count_new cs))%Z).
    { unfold count_new. cbn [filter]. destruct (is_new c); cbn [length]; lia. }
    rewrite C in *.
    assert (B1 : is_new c = true -> (w_last w + 1 < maxid)%Z) by (intro Hn; rewrite Hn in B; lia).
    assert (B2 : (w_last w < maxid)%Z) by (destruct (is_new c); lia).
    destruct (exec_sim w sw c W Fc B1 B2) as (w1 & E1 & W1 & L1 & O).
    assert (H1 := winv_exec w sw hf c W Fc B1 B2 H).
    cbn [fold_left run] in *. destruct (exec w c) as [w2 o]. cbn [fst snd] in *. subst w2.
    eapply IH; [exact W1|exact Fcs|lia|exact H1|]. destruct o; try exact E; destruct O.
Qed.

Lemma winv_legal cs w : legal cs -> run w_init cs = Ret w -> winv w (heap_free cs).
Proof.
  intros (F & _ & C) E. apply max_new_lt in C.
  eapply (winv_run cs w_init s_init); [exact wrep_init|exact F|cbn; lia| |exact E].
  intro v. cbn. lia.
Qed.

(** The nodes of a variable. *)
Lemma num_deps_inj a n m : num_deps a n -> num_deps a m -> n = m.
Proof.
  intros (l & N1 & <- & H1) (l' & N2 & <- & H2). apply Nat.le_antisymm; apply NoDup_incl_length; auto; intros i Hi.
  - apply H2, H1, Hi.
  - apply H1, H2, Hi.
Qed.
Lemma held_inj cs v n m : held cs v n -> held cs v m -> n = m.
Proof. unfold held. destruct (heap_free cs v); [lia|apply num_deps_inj]. Qed.
Lemma held_nodes cs w v : legal cs -> run w_init cs = Ret w -> held cs v (length (usigma (w_var w v))).
Proof.
  intros Lg E. assert (I := winv_legal cs w Lg E v). destruct (legal_sim cs Lg) as (w2 & E2 & (_ & _ & W) & _).
  rewrite E in E2. injection E2 as <-. specialize (W v). unfold held. destruct (heap_free cs v).
  - rewrite (wf_nonneg _ _ (rep_wf _ _ _ W) I). reflexivity.
  - exists (map fst (usigma (w_var w v))). split; [apply msorted_NoDup, W|]. split; [apply map_length|].
    intro i. rewrite <- (rep_dep _ _ _ W i), ukeys_neg by exact I. reflexivity.
Qed.
Lemma legal_snoc cs c : legal (cs ++ [c]) -> legal cs.
Proof.
  intros (F & D & C). split; [apply Forall_app in F; tauto|]. split.
  - revert D. generalize s_init. clear. induction cs as [|c' cs IH]; intros s D; [exact I|].
    cbn [app divisions_ok] in D |- *. split; [apply D|apply IH, D].
  - unfold count_new in *. rewrite filter_app, app_length in C. lia.
Qed.
Lemma run_snoc {N : Num} (cs : list (call N)) c w : forall w0, run w0 cs = Ret w ->
  run w0 (cs ++ [c]) = match exec w c with (w', Ret _) | (w', Throw _) => Ret w' | (_, UB) => UB | (_, Assert) => Assert end.
Proof.
  induction cs as [|c' cs IH]; intros w0 E.
  - injection E as ->. reflexivity.
  - cbn [app run] in *. destruct (exec w0 c') as [w1 [| | |]]; try discriminate; apply IH, E.
Qed.
Lemma run_legal_snoc cs c w : legal (cs ++ [c]) -> run w_init cs = Ret w ->
  run w_init (cs ++ [c]) = Ret (fst (exec w c)).
Proof.
  intros Lg E. destruct (legal_sim _ Lg) as (w2 & E2 & _). rewrite E2. rewrite (run_snoc _ c w _ E) in E2.
  destruct (exec w c) as [w3 [| | |]]; try discriminate; cbn; congruence.
Qed.

Lemma C85_memory_held_proof : forall (L : map_lib RN) cs w v, good_map_lib L -> legal cs -> run w_init cs = Ret w ->
  exists n, held cs v n /\ (n <= count_new cs)%nat /\
    (forall u, u <> v -> heap_free cs u = true -> allocates L w (CCopy u v) n) /\
    (forall u k, (n <= k)%nat -> snd (exec_a L k w (CCopy u v)) = Some (Ret tt)).
Proof.
  intros L cs w v G Lg E. exists (length (usigma (w_var w v))).
  split; [now apply held_nodes|].
  destruct (legal_sim cs Lg) as (w2 & E2 & (_ & _ & W) & LL). rewrite E in E2. injection E2 as <-.
  split.
  { assert (Hn := W v). destruct (Z_lt_dec (uid (w_var w v)) 0) as [Ng|Ng].
    - rewrite <- (map_length fst). assert (B := wf_bound _ _ (rep_wf _ _ _ Hn)). rewrite ukeys_neg in B by exact Ng.
      rewrite LL in B. transitivity (length (map Z.of_nat (seq 1 (count_new cs)))).
      + apply NoDup_incl_length; [apply msorted_NoDup, Hn|]. intros i Hi. apply B in Hi.
        apply in_map_iff. exists (Z.to_nat i). split; [lia|]. apply in_seq. lia.
      + rewrite map_length, seq_length. lia.
    - rewrite (wf_nonneg _ _ (rep_wf _ _ _ Hn)) by lia. cbn. lia. }
  split.
  - intros u Hu Fu k. cbn [exec_a]. rewrite a_store_exact.
    destruct (Nat.eqb_spec u v); [contradiction|].
    assert (I := winv_legal cs w Lg E u). rewrite Fu in I.
    apply copy_exact; [exact G|]. exact (wf_nonneg _ _ (rep_wf _ _ _ (W u)) I).
  - intros u k Hk. cbn [exec_a]. unfold a_store. cbn [snd].
    assert (Q := copy_enough L k (Nat.eqb u v) (w_var w u) (w_var w v) G Hk).
    destruct (snd (a_copy_assign _ _ _ _ _)); [reflexivity|congruence].
Qed.

Lemma C85_allocations_proof : forall (L : map_lib RN) cs c w, legal (cs ++ [c]) -> run w_init cs = Ret w ->
  (no_operands c = true -> allocates L w c 0) /\
  (no_operands c = false -> in_place c = false -> forall n, held (cs ++ [c]) (writes c) n -> allocates L w c n) /\
  (in_place c = true -> is_copy c = false -> forall n n',
     held cs (writes c) n -> held (cs ++ [c]) (writes c) n' -> (n <= n')%nat /\ allocates L w c (n' - n)).
Proof.
  intros L cs c w Lg E. assert (Lg0 := legal_snoc _ _ Lg). assert (E' := run_legal_snoc cs c w Lg E).
  assert (H0 := fun v => held_nodes cs w v Lg0 E). assert (H1 := fun v => held_nodes _ _ v Lg E').
  split; [|split].
  - intros Hc k. split; [|lia]. destruct c; try discriminate Hc; cbn [exec_a]; destruct (exec w _); discriminate.
  - intros Hc Hp n Hn k. rewrite (held_inj _ _ _ _ Hn (H1 _)). clear n Hn H1 E'.
    assert (Q : forall v o, (exists z, o = Ret z) -> (snd (a_result k w v o) = None <->
      (k < length (usigma (w_var (fst (assign_result w v o)) v)))%nat)).
    { intros v o (z & ->). rewrite a_result_exact. cbn. unfold upd. rewrite Nat.eqb_refl. reflexivity. }
    destruct (legal_sim cs Lg0) as (w2 & E2 & W & LL). rewrite E in E2. injection E2 as <-.
    destruct Lg as (F & _ & C). apply max_new_lt in C. apply Forall_app in F as [_ F]. inversion F as [|? ? Fc _]; subst.
    assert (B2 : (w_last w < maxid)%Z).
    { rewrite LL. unfold count_new in *. rewrite filter_app, app_length in C. lia. }
    destruct (exec_sim w _ c W Fc) as (_ & _ & _ & _ & O); [destruct c; discriminate|exact B2|].
    assert (X : snd (exec w c) = Ret tt).
    { destruct (snd (exec w c)) as [[]|e| |]; try reflexivity; try tauto. destruct O as (_ & v & x & s & -> & _). discriminate. }
    assert (Y : forall v o, snd (assign_result w v o) = Ret tt -> exists z : ureal RN, o = Ret z).
    { intros v o. destruct o; cbn; try discriminate. eauto. }
    destruct c; try discriminate Hc; try discriminate Hp; cbn [exec_a writes];
      (apply Q; first [eexists; reflexivity|exact (Y _ _ X)]).
  - intros Hp Hc n n' Hn Hn'. rewrite (held_inj _ _ _ _ Hn' (H1 _)), (held_inj _ _ _ _ Hn (H0 _)). clear n n' Hn Hn' H0 H1 E'.
    assert (Q : forall v x mu dt dx,
      let w' := w_set w v (u_assign_gen (Nat.eqb v x) (w_var w v) (w_var w x) mu dt dx) in
      (length (usigma (w_var w v)) <= length (usigma (w_var w' v)))%nat /\
      forall k, snd (a_store w v (a_assign_gen k (Nat.eqb v x) (w_var w v) (w_var w x) mu dt dx)) = None <->
      (k < length (usigma (w_var w' v)) - length (usigma (w_var w v)))%nat).
    { intros v x mu dt dx w'. unfold w'. cbn [w_var w_set]. unfold upd. rewrite Nat.eqb_refl.
      split; [apply (a_assign_exact 0)|]. intro k. rewrite a_store_exact.
      destruct (a_assign_exact k (Nat.eqb v x) (w_var w v) (w_var w x) mu dt dx) as [A B]. rewrite A. lia. }
    destruct c; try discriminate Hc; try discriminate Hp; exact (Q _ _ _ _ _).
Qed.

Lemma heap_free_one c hf : one_operand c = true -> (forall v, hf v = true) -> forall v, heap_free_after hf c v = true.
Proof.
  intros Hc H v. destruct c; try discriminate Hc; cbn [heap_free_after]; try destruct (Rlt_dec _ _); try destruct (Nat.eqb _ _); auto.
Qed.
Lemma heap_free_all cs : List.Forall (fun c => one_operand c = true) cs -> forall v, heap_free cs v = true.
Proof.
  unfold heap_free. assert (H : forall v : nat, (fun _ : nat => true) v = true) by reflexivity. revert H. generalize (fun _ : nat => true).
  induction cs as [|c cs IH]; intros hf H F; [exact H|]. inversion F; subst. cbn [fold_left].
  apply IH; [|assumption]. apply heap_free_one; assumption.
Qed.

Lemma C85_one_operand_no_heap_proof : forall (L : map_lib RN) cs c w, good_map_lib L ->
  legal (cs ++ [c]) -> List.Forall (fun c => one_operand c = true) (cs ++ [c]) -> run w_init cs = Ret w ->
  allocates L w c 0 /\ forall k, exec_a L k w c = (fst (exec w c), Some (snd (exec w c))).
Proof.
  intros L cs c w G Lg F E. assert (Lg0 := legal_snoc _ _ Lg).
  assert (A : allocates L w c 0).
  { destruct (C85_allocations_proof L cs c w Lg E) as (A1 & A2 & _).
    destruct (no_operands c) eqn:Hn; [exact (A1 eq_refl)|].
    destruct (in_place c) eqn:Hp.
    - apply Forall_app in F as [F0 F1]. inversion F1 as [|? ? Fc _]; subst.
      destruct c; try discriminate Hp; try discriminate Fc.
      destruct (C85_memory_held_proof L cs w x G Lg0 E) as (n & Hh & _ & _ & H). unfold held in Hh.
      rewrite (heap_free_all cs F0) in Hh. subst n. intro k. rewrite H by lia. split; [discriminate|lia].
    - apply (A2 eq_refl eq_refl). unfold held. rewrite (heap_free_all _ F). reflexivity. }
  split; [exact A|]. intro k. specialize (A k). destruct (exec_a L k w c) as [w' [o|]] eqn:X.
  - apply exec_a_some in X. rewrite X. reflexivity.
  - cbn in A. assert (k < 0)%nat by now apply A. lia.
Qed.
