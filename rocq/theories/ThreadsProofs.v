(** * ThreadsProofs: ids are unique under every interleaving *)

From Coq Require Import List ZArith Bool Lia Permutation Relation_Operators.
From Verif Require Import Base Num Map UReal World SpecObs URealProofs Threads.
Import ListNotations.

Section Proofs.
  Context {N : Num}.

  Definition t_ids (t : thread N) : list Z :=
    match t_pending t with Some (i, _) => [i] | None => [] end ++ map uid (t_done t).
  Definition ids_of (l : list (thread N)) : list Z := flat_map t_ids l.
  Definition todo (l : list (thread N)) : Z := Z.of_nat (length (flat_map t_prog l)).

  Record inv (total : Z) (c : config N) : Prop := {
    inv_nodup : NoDup (ids_of (c_threads c));
    inv_range : forall i, In i (ids_of (c_threads c)) -> (1 <= i <= c_counter c)%Z;
    inv_pos : (0 <= c_counter c)%Z;
    inv_total : (c_counter c + todo (c_threads c) = total)%Z;
    inv_plain : forall t x, In t (c_threads c) -> In x (t_done t) -> usigma x = []
  }.

  Lemma ids_of_mid l1 t l2 : ids_of (l1 ++ t :: l2) = ids_of l1 ++ t_ids t ++ ids_of l2.
  Proof. unfold ids_of. rewrite flat_map_app. reflexivity. Qed.
  Lemma todo_mid l1 t l2 :
    todo (l1 ++ t :: l2) = (todo l1 + Z.of_nat (length (t_prog t)) + todo l2)%Z.
  Proof.
    unfold todo. rewrite flat_map_app. cbn [flat_map]. rewrite !app_length. lia.
  Qed.

  Lemma inv_step total c c' : (total < maxid)%Z -> inv total c -> step c c' -> inv total c'.
  Proof.
    intros B [ND RG P T PL] S. destruct S as [l1 t l2 k k' t' Hs].
    cbn [c_counter c_threads] in *. rewrite ids_of_mid in *. rewrite todo_mid in *.
    assert (T1 : (0 <= todo l1)%Z) by (unfold todo; lia).
    assert (T2 : (0 <= todo l2)%Z) by (unfold todo; lia).
    unfold thread_step in Hs. destruct t as [p pe d]. cbn [t_pending t_prog t_done] in *.
    destruct pe as [[i [n s]]|].
    - injection Hs as <- <-.
      assert (Sub : t_ids (if nltb s n0 then mkThread p None d else mkThread p None (mkU i s n [] :: d))
                    = map uid d \/
                    t_ids (if nltb s n0 then mkThread p None d else mkThread p None (mkU i s n [] :: d))
                    = t_ids (mkThread p (Some (i, (n, s))) d)).
      { destruct (nltb s n0); [left|right]; reflexivity. }
      assert (Eq : t_ids (mkThread p (Some (i, (n, s))) d) = i :: map uid d) by reflexivity.
      rewrite Eq in *.
      assert (ND' : NoDup (ids_of l1 ++ map uid d ++ ids_of l2)) by (apply NoDup_remove_1 in ND; exact ND).
      assert (Pr : t_prog (if nltb s n0 then mkThread p None d else mkThread p None (mkU i s n [] :: d)) = p)
        by (destruct (nltb s n0); reflexivity).
      split; cbn [c_counter c_threads]; rewrite ?ids_of_mid, ?todo_mid, ?Pr; auto.
      + destruct Sub as [-> | ->]; assumption.
      + intros j Hj. apply RG. destruct Sub as [E|E]; rewrite E in Hj; [|exact Hj].
        rewrite in_app_iff in *. destruct Hj as [Hj|Hj]; [now left|right].
        cbn. right. exact Hj.
      + intros t x Ht Hx. apply in_app_iff in Ht as [Ht|[<-|Ht]].
        * eapply PL; [apply in_app_iff; left; exact Ht|exact Hx].
        * destruct (nltb s n0); cbn in Hx.
          -- eapply PL; [apply in_app_iff; right; left; reflexivity|exact Hx].
          -- destruct Hx as [<-|Hx]; [reflexivity|].
             eapply PL; [apply in_app_iff; right; left; reflexivity|exact Hx].
        * eapply PL; [apply in_app_iff; right; right; exact Ht|exact Hx].
    - destruct p as [|ns p]; [discriminate|]. injection Hs as <- <-.
      cbn [t_prog length] in T.
      assert (W : wrap32 (k + 1) = (k + 1)%Z).
      { unfold wrap32, maxid in *. rewrite Z.mod_small; lia. }
      rewrite W. split; cbn [c_counter c_threads]; rewrite ?ids_of_mid, ?todo_mid; cbn [t_prog].
      + change (t_ids (mkThread p (Some ((k + 1)%Z, ns)) d)) with ((k + 1)%Z :: map uid d).
        change (t_ids (mkThread (ns :: p) None d)) with (map uid d) in *.
        cbn [app]. apply NoDup_Add with (a := (k + 1)%Z) (l := ids_of l1 ++ map uid d ++ ids_of l2).
        * apply Add_app.
        * split; [exact ND|]. intro Hin. apply RG in Hin. lia.
      + intros j Hj. change (t_ids (mkThread p (Some ((k + 1)%Z, ns)) d)) with ((k + 1)%Z :: map uid d) in Hj.
        rewrite in_app_iff in Hj. cbn [app In] in Hj.
        destruct Hj as [Hj|[Hj|Hj]]; [|lia|];
          (assert (1 <= j <= k)%Z; [apply RG; rewrite in_app_iff; tauto|lia]).
      + lia.
      + lia.
      + intros t x Ht Hx. apply in_app_iff in Ht as [Ht|[<-|Ht]].
        * eapply PL; [apply in_app_iff; left; exact Ht|exact Hx].
        * eapply PL; [apply in_app_iff; right; left; reflexivity|exact Hx].
        * eapply PL; [apply in_app_iff; right; right; exact Ht|exact Hx].
  Qed.

  Lemma inv_steps total c c' : (total < maxid)%Z -> steps c c' -> inv total c -> inv total c'.
  Proof. intros B S. induction S; auto. intro I. apply IHS. eapply inv_step; eauto. Qed.

  Lemma inv_start (progs : list (list (N * N))) :
    inv (Z.of_nat (length (concat progs))) (mkConfig 0 (map t_start progs)).
  Proof.
    assert (E : ids_of (map t_start progs) = []) by (induction progs; auto).
    split; cbn [c_counter c_threads].
    - rewrite E. constructor.
    - rewrite E. intros i [].
    - lia.
    - unfold todo. rewrite flat_map_concat_map, map_map. cbn [t_prog t_start].
      replace (map (fun x : list (N * N) => x) progs) with progs by (symmetry; apply map_id). lia.
    - intros t x Ht Hx. apply in_map_iff in Ht as (p & <- & _). destruct Hx.
  Qed.
End Proofs.

(** All the variables all the threads have constructed, with the ids they report. *)
Lemma C02_concurrent_ids_unique_proof : forall (N : Num) (progs : list (list (N * N))) c,
  (length (concat progs) <= max_new)%nat ->
  steps (mkConfig 0 (map t_start progs)) c ->
  let made := flat_map t_done (c_threads c) in
  exists ids, map u_indepid made = map Ret ids /\ NoDup ids /\ forall i, In i ids -> (0 < i)%Z.
Proof.
  intros N progs c L S made. apply max_new_lt in L.
  assert (I := inv_steps _ _ _ L S (inv_start progs)). destruct I as [ND RG P T PL].
  assert (Hin : forall i, In i (map uid made) -> In i (ids_of (c_threads c))).
  { intros i Hi. apply in_map_iff in Hi as (x & <- & Hx). unfold made in Hx.
    apply in_flat_map in Hx as (t & Ht & Hx). unfold ids_of. apply in_flat_map.
    exists t. split; [exact Ht|]. unfold t_ids. apply in_app_iff. right. now apply in_map. }
  exists (map uid made). split; [|split].
  - rewrite map_map. apply map_ext_in. intros x Hx.
    assert (Hr := RG (uid x) (Hin _ (in_map uid _ _ Hx))).
    unfold made in Hx. apply in_flat_map in Hx as (t & Ht & Hx). assert (Sx := PL t x Ht Hx).
    unfold u_indepid. rewrite Sx. cbn [length Nat.eqb]. rewrite orb_true_r. cbn [assert_ bind].
    destruct (Z.leb_spec 0 (uid x)); [reflexivity|lia].
  - unfold made. clear -ND. unfold ids_of in ND. induction (c_threads c) as [|t l IH]; [constructor|].
    cbn [flat_map] in *. rewrite map_app. unfold t_ids in ND at 1.
    rewrite <- app_assoc in ND.
    assert (NoDup (map uid (t_done t) ++ flat_map t_ids l)).
    { destruct (t_pending t) as [[i ?]|]; cbn [app] in ND; [now inversion ND|exact ND]. }
    assert (Sub : forall i, In i (map uid (flat_map t_done l)) -> In i (flat_map t_ids l)).
    { intros i Hi. apply in_map_iff in Hi as (x & <- & Hx).
      apply in_flat_map in Hx as (t' & Ht & Hx). apply in_flat_map.
      exists t'. split; [exact Ht|]. unfold t_ids. apply in_app_iff. right. now apply in_map. }
    clear ND. revert H. generalize (map uid (t_done t)). intro m.
    induction m as [|a m IHm]; cbn [app]; intro H.
    + now apply IH.
    + inversion H as [|? ? Hn Hm]; subst. constructor; [|now apply IHm].
      intro Hin. apply Hn. rewrite in_app_iff in *. destruct Hin; [now left|right; auto].
  - intros i Hi. apply Hin, RG in Hi. lia.
Qed.
