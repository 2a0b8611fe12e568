(** Operators: property theorems (C25-C30 and C55-C57). *)
From Coq Require Import Permutation.
From Verif.Operators Require Import PauliModel PauliSpec PauliProofs CommuteProofs GroupModel GroupProofs FermiModel FermiSpec FermiProofs OpProofs.
Local Open Scope nat_scope.

(** C25. The product of two terms denotes the matrix product, whatever order the keys are visited in ... *)
Theorem C25_term_product (n : nat) (keys : list nat) (a b : term) (r c : list bool) :
  covers keys a b -> within n a -> within n b -> length r = n -> length c = n ->
  let '(t, k) := tmul keys a b in mprod n (tmat n a) (tmat n b) r c = gmul k (tmat n t r c).
Proof. intros Cv Wa Wb Lr Lc. rewrite (surjective_pairing (tmul keys a b)). exact (tmul_ok n keys a b Cv Wa Wb r c Lr Lc). Qed.
Print Assumptions C25_term_product.
Example C25_ex : let a := [(0, FX); (2, FA)] in let b := [(2, FC); (1, FZ); (0, FY)] in
  covers [2; 0; 1] a b /\ within 3 a /\ within 3 b /\ tmul [2; 0; 1] a b = ([(2, FP0); (0, FZ); (1, FZ)], gi).
Proof.
  cbv zeta. split; [split; [repeat constructor; cbn; lia|cbn; intros k; intuition]|].
  repeat split; try (intros k H; cbn in H; lia).
Qed.
(** ... and products of operators are associative as operators. *)
Theorem C25_associative (n : nat) (ord : term -> term -> list nat) (a b d : op) :
  enumerates ord -> owithin n a -> owithin n b -> owithin n d ->
  same_on n (omat n (omul ord (omul ord a b) d)) (omat n (omul ord a (omul ord b d))).
Proof. exact (omul_assoc n ord a b d). Qed.
Print Assumptions C25_associative.
Lemma allkeys_enumerates : enumerates allkeys.
Proof. intros a b. unfold allkeys. split; [apply NoDup_nodup|]. intros k. rewrite nodup_In, in_app_iff. reflexivity. Qed.
Example C25_ex2 : enumerates allkeys /\
  omul allkeys (omul allkeys [([(0, FX)], g1); ([(1, FA)], gi)] [([(0, FY)], g1)]) [([(1, FC)], g1)] =
  [([(0, FZ); (1, FC)], gi); ([(0, FY); (1, FP0)], gi)].
Proof. split; [exact allkeys_enumerates|vm_compute; reflexivity]. Qed.

(** C26. commute decides operator commutation, commute_qw decides commutation on each qubit. *)
Theorem C26_commute (n : nat) (ord : term -> term -> list nat) (a b : term) :
  enumerates ord -> within n a -> within n b -> commute ord a b = true <-> commuting n a b.
Proof. exact (commute_ok n ord a b). Qed.
Print Assumptions C26_commute.
Theorem C26_commute_qw (ord : term -> term -> list nat) (a b : term) :
  enumerates ord -> commute_qw ord a b = true <-> forall k, commute1 (get a k) (get b k).
Proof. exact (commute_qw_ok ord a b). Qed.
Print Assumptions C26_commute_qw.
Theorem C26_qw_implies_commute (n : nat) (ord : term -> term -> list nat) (a b : term) :
  enumerates ord -> within n a -> within n b -> commute_qw ord a b = true -> commute ord a b = true.
Proof. intros En Wa Wb H. apply (commute_ok n ord a b En Wa Wb). exact (commute_qw_sound n ord a b En Wa Wb H). Qed.
Print Assumptions C26_qw_implies_commute.
(** commute_pauli agrees on terms of Pauli letters only. *)
Theorem C26_commute_pauli (n : nat) (ord : term -> term -> list nat) (a b : term) :
  enumerates ord -> within n a -> within n b -> (forall k, is_pauli (get a k) = true /\ is_pauli (get b k) = true) ->
  commute_pauli ord a b = true <-> commuting n a b.
Proof. exact (commute_pauli_ok n ord a b). Qed.
Print Assumptions C26_commute_pauli.
Example C26_ex : let a := [(0, FX); (1, FX)] in let b := [(1, FZ); (0, FZ)] in
  within 2 a /\ within 2 b /\ commute allkeys a b = true /\ commute_qw allkeys a b = false /\ commute_pauli allkeys a b = true /\
  commute allkeys [(0, FA)] [(0, FC)] = false /\ commute allkeys [(0, FA); (1, FZ)] [(0, FA); (1, FX)] = true.
Proof. repeat split; try reflexivity; intros k H; cbn in H; lia. Qed.

(** C27. group_up returns a partition of the terms (as positions) into groups of pairwise related terms. *)
Theorem C27_group_up {A} (rel : A -> A -> bool) (items : list A) (d : A) :
  exists groups, group_up_iterable rel items d = Some groups /\ Permutation (concat groups) items /\
  forall g, In g groups -> exists ps, NoDup ps /\ (forall p, In p ps -> p < length items) /\ g = map (fun p => nth p items d) ps /\
    forall p q, In p ps -> In q ps -> p <> q -> rel (nth p items d) (nth q items d) = true.
Proof. exact (group_up_ok rel items d). Qed.
Print Assumptions C27_group_up.
Example C27_ex : group_up_iterable (commute_qw allkeys) [[(0, FX)]; [(0, FZ)]; [(1, FZ)]; [(0, FX); (1, FZ)]] [] =
  Some [[[(0, FZ)]; [(1, FZ)]]; [[(0, FX)]; [(0, FX); (1, FZ)]]].
Proof. vm_compute. reflexivity. Qed.
(** commuting_groups (greedy) has the same guarantee. *)
Theorem C27_commuting_groups {A} (rel : A -> A -> bool) (sorted : list A) :
  Permutation (concat (commuting_groups rel sorted)) sorted /\
  Forall (ForallOrdPairs (fun x y => rel x y = true)) (commuting_groups rel sorted).
Proof. exact (commuting_groups_ok rel sorted). Qed.
Print Assumptions C27_commuting_groups.

(** C28. adjoint is the conjugate transpose, an involution, and reverses products. *)
Theorem C28_adjoint (n : nat) (t : term) (r c : list bool) :
  NoDup (dom t) -> length r = n -> length c = n -> tmat n (tadj t) r c = gconj (tmat n t c r).
Proof. intros N Lr Lc. exact (tadj_ok n t N r c Lr Lc). Qed.
Print Assumptions C28_adjoint.
Theorem C28_involution (t : term) : NoDup (dom t) -> teqb (tadj (tadj t)) t = true.
Proof. exact (tadj_tadj t). Qed.
Print Assumptions C28_involution.
Theorem C28_product (n : nat) (keys keys' : list nat) (a b : term) (r c : list bool) :
  covers keys a b -> covers keys' (tadj b) (tadj a) -> within n a -> within n b -> NoDup (dom a) -> NoDup (dom b) ->
  length r = n -> length c = n ->
  let '(t, k) := tmul keys a b in let '(t', k') := tmul keys' (tadj b) (tadj a) in
  gmul k' (tmat n t' r c) = gconj (gmul k (tmat n t c r)).
Proof.
  intros Cv Cv' Wa Wb Na Nb Lr Lc. rewrite (surjective_pairing (tmul keys a b)), (surjective_pairing (tmul keys' (tadj b) (tadj a))).
  exact (tadj_mul n keys keys' a b Cv Cv' Wa Wb Na Nb r c Lr Lc).
Qed.
Print Assumptions C28_product.
Theorem C28_operator_adjoint (n : nat) (a : op) (r c : list bool) :
  dict a -> (forall tc, In tc a -> NoDup (dom (fst tc))) -> length r = n -> length c = n ->
  omat n (oadj a) r c = gconj (omat n a c r).
Proof. intros D N Lr Lc. exact (oadj_ok n a D N r c Lr Lc). Qed.
Print Assumptions C28_operator_adjoint.
Example C28_ex : let a := [([(0, FX); (1, FA)], gi); ([(0, FC)], g1)] in
  dict a /\ (forall tc, In tc a -> NoDup (dom (fst tc))) /\ oadj a = [([(0, FX); (1, FC)], gneg gi); ([(0, FA)], g1)].
Proof.
  cbv zeta. split; [|split; [|reflexivity]].
  - split; [intros ? [<-|[]]; reflexivity|]. split; [intros ? []|exact I].
  - intros tc [<-|[<-|[]]]; repeat constructor; cbn; lia.
Qed.

(** C29. The Jordan-Wigner images of two ladder operators satisfy the canonical anticommutation relations:
    the anticommutator is the identity for a_i, c_i and zero otherwise. *)
Theorem C29_anticommutation (n : nat) (ord : term -> term -> list nat) (l1 l2 : ladder) (r c : list bool) :
  enumerates ord -> fst l1 < n -> fst l2 < n -> length r = n -> length c = n ->
  gadd (mprod n (omat n (jw_ladder ord l1)) (omat n (jw_ladder ord l2)) r c)
       (mprod n (omat n (jw_ladder ord l2)) (omat n (jw_ladder ord l1)) r c) =
  if (fst l1 =? fst l2) && negb (eqb (snd l1) (snd l2)) then (if seqb c r then g1 else g0) else g0.
Proof. intros En H1 H2 Lr Lc. exact (jw_car n ord l1 l2 En H1 H2 r c Lr Lc). Qed.
Print Assumptions C29_anticommutation.
Example C29_ex : jw_ladder allkeys (2, true) = [([(1, FZ); (0, FZ); (2, FC)], g1)] /\
  mprod 2 (omat 2 (jw_ladder allkeys (1, false))) (omat 2 (jw_ladder allkeys (0, true))) [true; false] [false; true] = gneg g1 /\
  mprod 2 (omat 2 (jw_ladder allkeys (0, true))) (omat 2 (jw_ladder allkeys (1, false))) [true; false] [false; true] = g1.
Proof. vm_compute. auto. Qed.

(** C30. sort returns a sign and a term which together act as the original product on every basis state,
    for products in which no mode occurs more than twice ... *)
Theorem C30_sort_partial (t : fterm) (s : state) :
  fits s t -> at_most_twice t -> scaled (snd (fsort t)) (act (fst (fsort t)) s) = act t s.
Proof. exact (fsort_ok t s). Qed.
Print Assumptions C30_sort_partial.
Example C30_ex : let t := [(0, true); (2, false); (1, true); (2, true)] in
  at_most_twice t /\ fsort t = ([(2, false); (2, true); (1, true); (0, true)], 1%Z) /\ act t [false; false; true] = Some (false, [true; true; true]).
Proof. split; [|split; reflexivity]. intros i. do 3 (destruct i as [|i]; [cbn; lia|]). cbn. lia. Qed.
(** ... but a product with a mode occurring three times below another mode is declared zero although it is not. *)
Theorem C30_sort_refuted : exists t s, fits s t /\ act t s <> None /\ scaled (snd (fsort t)) (act (fst (fsort t)) s) = None.
Proof.
  exists [(1, false); (0, true); (0, false); (0, true)], [false; true]. split; [|split; [vm_compute; discriminate|reflexivity]].
  intros l H. cbn in H. destruct H as [<-|[<-|[<-|[<-|[]]]]]; cbn; lia.
Qed.
Print Assumptions C30_sort_refuted.
(** reduce keeps the operator under the same condition. *)
Theorem C30_reduce_partial (o : fop) (s s' : state) :
  (forall tc, In tc o -> fits s (fst tc) /\ at_most_twice (fst tc)) -> opamp (freduce o) s s' = opamp o s s'.
Proof. exact (freduce_ok o s s'). Qed.
Print Assumptions C30_reduce_partial.

(** C55. Sums, differences and products of qubit operators denote those of their matrices. *)
Theorem C55_arithmetic (n : nat) (ord : term -> term -> list nat) (a b : op) (r c : list bool) :
  enumerates ord -> owithin n a -> owithin n b -> length r = n -> length c = n ->
  omat n (oadd a b) r c = gadd (omat n a r c) (omat n b r c) /\
  omat n (osub a b) r c = gsub (omat n a r c) (omat n b r c) /\
  omat n (orsub a b) r c = gsub (omat n b r c) (omat n a r c) /\
  omat n (omul ord a b) r c = mprod n (omat n a) (omat n b) r c.
Proof.
  intros En Wa Wb Lr Lc.
  exact (conj (oadd_ok n a b r c) (conj (osub_ok n a b r c) (conj (orsub_ok n a b r c) (omul_ok n ord a b En Wa Wb r c Lr Lc)))).
Qed.
Print Assumptions C55_arithmetic.
(** to_array / to_sparse_matrix list the entries of the denoted matrix, qubit 0 being the most significant bit; *)
Theorem C55_to_matrix (n : nat) (o : op) (i j : Z) :
  0 < n -> (0 <= i < 2 ^ Z.of_nat n)%Z -> (0 <= j < 2 ^ Z.of_nat n)%Z ->
  to_matrix n o i j = omat n o (bits_msb n i) (bits_msb n j).
Proof. exact (to_matrix_ok n o i j). Qed.
Print Assumptions C55_to_matrix.
(** from_matrix followed by to_array gives the matrix back. *)
Theorem C55_round_trip (n : nat) (es : list (Z * Z * G)) (i j : Z) :
  0 < n -> Forall (in_range n) es -> NoDup (map fst es) -> (0 <= i < 2 ^ Z.of_nat n)%Z -> (0 <= j < 2 ^ Z.of_nat n)%Z ->
  to_matrix n (from_matrix n es) i j =
  gsum es (fun e => if (fst (fst e) =? i)%Z && (snd (fst e) =? j)%Z then snd e else g0).
Proof. intros Hn F N Hi Hj. rewrite (to_matrix_ok n _ i j Hn Hi Hj). exact (from_matrix_ok n es F N i j Hi Hj). Qed.
Print Assumptions C55_round_trip.
Example C55_ex : let es := [(0, 3, gi); (2, 1, g1)]%Z in Forall (in_range 2) es /\ NoDup (map fst es) /\
  from_matrix 2 es = [([(1, FA); (0, FA)], gi); ([(1, FA); (0, FC)], g1)] /\ to_matrix 2 (from_matrix 2 es) 0%Z 3%Z = gi /\ to_matrix 2 (from_matrix 2 es) 2%Z 1%Z = g1 /\ to_matrix 2 (from_matrix 2 es) 1%Z 2%Z = g0.
Proof.
  cbv zeta. split; [repeat constructor; vm_compute; intuition congruence|]. split; [repeat constructor; cbn; intuition discriminate|]. vm_compute. auto.
Qed.

(** C56. Fermionic operators: sums, differences, products and daggers denote those of the operators on
    the occupation-number basis, and the Jordan-Wigner translation preserves all amplitudes. *)
Theorem C56_add (a b : fop) (s s' : state) :
  opamp (fadd a b) s s' = (opamp a s s' + opamp b s s')%Z /\ opamp (fsub a b) s s' = (opamp a s s' - opamp b s s')%Z.
Proof. exact (conj (fadd_ok a b s s') (fsub_ok a b s s')). Qed.
Print Assumptions C56_add.
Theorem C56_mul (a b : fop) (s s' : state) :
  opamp (fopmul a b) s s' = zsum (basis (length s)) (fun m => opamp b s m * opamp a m s')%Z.
Proof. exact (fopmul_ok (length s) a b s s' eq_refl). Qed.
Print Assumptions C56_mul.
Theorem C56_dagger (a : fop) (s s' : state) :
  fdict a -> length s' = length s -> (forall tc, In tc a -> fits s (fst tc)) -> opamp (fdagger a) s' s = opamp a s s'.
Proof. exact (fdagger_ok a s s'). Qed.
Print Assumptions C56_dagger.
Theorem C56_jordan_wigner (n : nat) (ord : term -> term -> list nat) (a : fop) (r c : list bool) :
  enumerates ord -> (forall tc l, In tc a -> In l (fst tc) -> fst l < n) -> length r = n -> length c = n ->
  omat n (to_qubit_operator ord a) r c = (opamp a c r, 0%Z).
Proof. intros En W Lr Lc. exact (to_qubit_operator_ok n ord a En W r c Lr Lc). Qed.
Print Assumptions C56_jordan_wigner.
Example C56_ex : let o := [([(0, false); (2, true)], 3%Z); ([(1, true)], (-2)%Z)] in
  fdict o /\ fdagger o = [([(2, false); (0, true)], 3%Z); ([(1, false)], (-2)%Z)] /\
  opamp o [true; true; false] [false; true; true] = (-3)%Z /\ omat 3 (to_qubit_operator allkeys o) [false; true; true] [true; true; false] = ((-3)%Z, 0%Z).
Proof. split; [repeat constructor; cbn; intuition discriminate|vm_compute; auto]. Qed.

(** C57. == on fermionic operators is not equality of operators: a(0) == c(0) holds, and
    O == O fails for O = a(1)*c(0). *)
Theorem C57_equality_refuted :
  (exists a b s s', feq a b = Some true /\ opamp a s s' <> opamp b s s') /\ (exists a, feq a a = Some false).
Proof.
  split.
  - exists [([(0, false)], 1%Z)], [([(0, true)], 1%Z)], [true], [false]. split; [reflexivity|vm_compute; discriminate].
  - exists (fopmul [([(1, false)], 1%Z)] [([(0, true)], 1%Z)]). reflexivity.
Qed.
Print Assumptions C57_equality_refuted.
(** It is reflexive for operators whose terms are already sorted, distinct and have non-zero coefficients. *)
Theorem C57_reflexive_partial (a : fop) :
  fdict a -> (forall tc, In tc a -> fsort (fst tc) = (fst tc, 1%Z) /\ snd tc <> 0%Z) -> feq a a = Some true.
Proof. exact (feq_refl a). Qed.
Print Assumptions C57_reflexive_partial.
Example C57_ex : let o := [([(2, true); (0, false)], 3%Z); ([(1, true)], (-2)%Z)] in
  fdict o /\ (forall tc, In tc o -> fsort (fst tc) = (fst tc, 1%Z) /\ snd tc <> 0%Z).
Proof. split; [repeat constructor; cbn; intuition discriminate|]. intros tc [<-|[<-|[]]]; split; vm_compute; congruence. Qed.
