(** Properties C01-C04: bit vectors (discodop/bit.pyx, bit.pxd, macros.h). *)
From Coq Require Import NArith ZArith List Bool Lia Sorted.
From Verif Require Import BitsModel BitsSpec BitsProofs FanoutProofs ArrayProofs.
Import ListNotations.
Local Open Scope N_scope.

(** ** C01 *)
Theorem C01_components_exist_unique : forall n, exists! l, components n l.
Proof.
  intros n. destruct (components_exist n) as [l H]. exists l. split; auto.
  intros l' H'. exact (components_unique n l l' H H').
Qed.
Theorem C01_fanout_counts_components : forall n l,
  components n l -> fanout n = N.of_nat (length l).
Proof. exact fanout_ok. Qed.
Theorem C01_fallback_counts_components : forall n l,
  components n l -> bitfanout n = N.of_nat (length l).
Proof. exact bitfanout_ok. Qed.
Example C01_ex : components 0xdb [(0, 2); (3, 5); (6, 8)] /\ fanout 0xdb = 3
  /\ fanout (2 ^ 200 + 3) = 2.
Proof.
  split; [|split; reflexivity]. split; [cbn; lia|]. intros i. unfold member. split.
  - intros H. destruct (N.lt_ge_cases i 8) as [L|L].
    + assert (C : i = 0 \/ i = 1 \/ i = 2 \/ i = 3 \/ i = 4 \/ i = 5 \/ i = 6 \/ i = 7) by lia.
      repeat (destruct C as [->|C]); subst; try discriminate;
        first [exists 0, 2; cbn; split; [tauto|lia]|exists 3, 5; cbn; split; [tauto|lia]|exists 6, 8; cbn; split; [tauto|lia]].
    + rewrite (proj1 (lt_pow2_bits 0xdb 8)) in H; [discriminate|reflexivity|assumption].
  - intros (a & b & Hin & Hi). cbn in Hin.
    destruct Hin as [E|[E|[E|[]]]]; inversion E; subst;
      [assert (C : i = 0 \/ i = 1) by lia|assert (C : i = 3 \/ i = 4) by lia|assert (C : i = 6 \/ i = 7) by lia];
      destruct C as [->| ->]; reflexivity.
Qed.

(** ** C02 *)
Theorem C02_nextset : forall v pos,
  (nextset v pos = (-1)%Z /\ forall i, pos <= i -> ~ member v i) \/
  (exists r, nextset v pos = Z.of_N r /\ pos <= r /\ member v r /\
             forall i, pos <= i < r -> ~ member v i).
Proof. exact nextset_ok. Qed.
Theorem C02_nextunset : forall v pos, v < 2 ^ 64 ->
  exists r, nextunset v pos = Z.of_N r /\
    ((r = 64 /\ forall i, pos <= i < 64 -> member v i) \/
     (pos <= r < 64 /\ ~ member v r /\ forall i, pos <= i < r -> member v i)).
Proof. exact nextunset_ok. Qed.
Theorem C02_bitlength : forall v, v < 2 ^ 64 ->
  (v = 0 /\ bitlength v = 0) \/
  (0 < bitlength v /\ member v (bitlength v - 1) /\
   forall i, bitlength v <= i -> ~ member v i).
Proof. exact bitlength_ok. Qed.
Theorem C02_bitcount : forall v l, lists_members (member v) l ->
  bitcount v = N.of_nat (length l).
Proof. exact popcount_card. Qed.
Theorem C02_testbit : forall v pos, pos < 64 -> (testbit v pos = true <-> member v pos).
Proof. intros v pos H. rewrite testbit_ok by assumption. reflexivity. Qed.
Example C02_ex : 102 < 2 ^ 64 /\ nextset 102 3 = 5%Z /\ nextset 102 7 = (-1)%Z
  /\ nextunset 102 1 = 3%Z /\ nextunset ones64 0 = 64%Z /\ bitlength 102 = 7
  /\ bitcount 102 = 4 /\ lists_members (member 102) [1; 2; 5; 6].
Proof. repeat split; try reflexivity; try (apply (bits_of_spec 102)). Qed.

(** ** C03 *)
Theorem C03_anextset : forall vec pos, words vec ->
  (anextset vec pos = (-1)%Z /\ has_none (amember vec) pos (nbits vec)) \/
  (exists r, anextset vec pos = Z.of_N r /\ is_least (amember vec) pos (nbits vec) r).
Proof. exact anextset_ok. Qed.
Theorem C03_anextunset : forall vec pos, words vec -> pos < nbits vec ->
  (anextunset vec pos = Z.of_N (nbits vec) /\ has_none (fun i => ~ amember vec i) pos (nbits vec)) \/
  (exists r, anextunset vec pos = Z.of_N r /\
             is_least (fun i => ~ amember vec i) pos (nbits vec) r).
Proof.
  intros vec pos W H. destruct (anextunset_ok vec pos W H) as [[H1 H2]|(r & H1 & H2 & H3 & H4)].
  - left. split; auto. intros i Hi C. apply C. auto.
  - right. exists r. split; auto. repeat split; try tauto. intros i Hi C. apply C. auto.
Qed.
Theorem C03_abitcount : forall vec l, words vec -> lists_members (amember vec) l ->
  abitcount vec = N.of_nat (length l).
Proof. exact abitcount_ok. Qed.
Theorem C03_abitlength : forall vec, words vec ->
  (abitlength vec = 0 /\ forall i, ~ amember vec i) \/
  (0 < abitlength vec /\ amember vec (abitlength vec - 1) /\
   forall i, abitlength vec <= i -> ~ amember vec i).
Proof. exact abitlength_ok. Qed.
Theorem C03_setops : forall a b i, length a = length b ->
  (amember (setunion a b) i <-> amember a i \/ amember b i) /\
  (amember (setintersect a b) i <-> amember a i /\ amember b i) /\
  (amember (setunioninplace a b) i <-> amember a i \/ amember b i) /\
  (amember (setintersectinplace a b) i <-> amember a i /\ amember b i).
Proof.
  intros. repeat split; intros; try (now apply setunion_ok); try (now apply setintersect_ok);
  first [apply (setunion_ok a b i) in H0 | apply (setintersect_ok a b i) in H0]; tauto.
Qed.
Theorem C03_subset : forall a b, words a -> words b -> length a = length b ->
  (subset a b = true <-> forall i, amember a i -> amember b i).
Proof. exact subset_ok. Qed.
(** Repeated calls of iteratesetbits return the members in increasing order,
    each once, and then -1 ([n] is any sufficient number of calls). *)
Theorem C03_iteratesetbits : forall vec n, words vec -> (N.to_nat (nbits vec) < n)%nat ->
  exists l, iter_collect n (iter_init vec) = map Z.of_N l /\
            StronglySorted N.lt l /\ forall i, In i l <-> amember vec i.
Proof.
  intros vec n W H. exists (abits vec 0). split; [now apply iter_all_ok|].
  split; [now apply abits_sorted|]. now apply abits_lists.
Qed.
Theorem C03_iterateunsetbits : forall vec n, words vec -> (N.to_nat (nbits vec) < n)%nat ->
  exists l, iter_collect n (iterunset_init vec) = map Z.of_N l /\
            StronglySorted N.lt l /\ forall i, In i l <-> i < nbits vec /\ ~ amember vec i.
Proof.
  intros vec n W H. destruct (C03_iteratesetbits (map wnot vec) n (words_wnot vec W)) as (l & H1 & H2 & H3).
  { now rewrite nbits_wnot. }
  exists l. split; auto. split; auto. intros i. rewrite H3. now apply amember_wnot.
Qed.
Theorem C03_setbit_clearbit_testbit : forall vec b i, words vec -> b < nbits vec ->
  (amember (SETBIT vec b) i <-> i = b \/ amember vec i) /\
  (amember (CLEARBIT vec b) i <-> i <> b /\ amember vec i) /\
  (TESTBIT vec b = true <-> amember vec b).
Proof.
  intros. split; [now apply SETBIT_ok|]. split; [now apply CLEARBIT_ok|apply TESTBIT_ok].
Qed.
Theorem C03_bitnslots : forall nb, nb <= 64 * BITNSLOTS nb < nb + 64.
Proof.
  intros nb. unfold BITNSLOTS. pose proof (N.div_mod (nb + 64 - 1) 64 ltac:(lia)).
  pose proof (N.mod_lt (nb + 64 - 1) 64 ltac:(lia)). lia.
Qed.
Example C03_ex : words [2 ^ 63; 5] /\ anextset [2 ^ 63; 5] 0 = 63%Z
  /\ anextunset [2 ^ 63; 5] 63 = 65%Z /\ anextunset [ones64; ones64] 3 = 128%Z
  /\ abitcount [2 ^ 63; 5] = 3 /\ abitlength [2 ^ 63; 5] = 67
  /\ iter_collect 129 (iter_init [2 ^ 63; 5]) = [63; 64; 66]%Z.
Proof. repeat split; repeat constructor. Qed.

(** ** C04 *)
Theorem C04_pyintnextset : forall a pos,
  (pyintnextset a pos = (-1)%Z /\ forall i, pos <= i -> ~ member a i) \/
  (exists r, pyintnextset a pos = Z.of_N r /\ pos <= r /\ member a r /\
             forall i, pos <= i < r -> ~ member a i).
Proof. exact pyintnextset_ok. Qed.
Theorem C04_pyintbitcount : forall a l, lists_members (member a) l ->
  pyintbitcount a = N.of_nat (length l).
Proof. intros. rewrite pyintbitcount_ok. now apply popcount_card. Qed.
Example C04_ex : pyintnextset (2 ^ 200 + 2 ^ 5) 6 = 200%Z /\ pyintbitcount (2 ^ 200 + 2 ^ 5) = 2
  /\ lists_members (member (2 ^ 200 + 2 ^ 5)) [5; 200].
Proof. repeat split; try reflexivity; apply (bits_of_spec (2 ^ 200 + 2 ^ 5)). Qed.

Print Assumptions C01_fanout_counts_components.
Print Assumptions C03_iteratesetbits.
Print Assumptions C04_pyintnextset.
