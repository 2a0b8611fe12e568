From Coq Require Import Lia.
From Verif.Gray Require Import GrayProofs.
From Verif.Lookup Require Import LookModel LookSpec LookProofs LookPprm.
Local Open Scope nat_scope.

Definition fits (keys : list qv) (vs : list nat) : Prop := Forall2 (fun k i => i < 2 ^ qsize k) keys vs.
Fixpoint kbits (keys : list qv) (vs : list nat) : list bool :=
  match keys, vs with k :: keys, v :: vs => map (Nat.testbit v) (seq 0 (qsize k)) ++ kbits keys vs | _, _ => [] end.
Definition labels_of (keys : list qv) (vs : list nat) : list label := map (fun kv => decoder (fst kv) (snd kv)) (combine keys vs).
Lemma kbits_length keys vs : fits keys vs -> length (kbits keys vs) = list_sum (map qsize keys).
Proof. intros F. induction F as [|k v keys vs H F IH]; [reflexivity|]. cbn [kbits map list_sum fold_right]. rewrite app_length, map_length, seq_length, IH. reflexivity. Qed.
Lemma testbits_inj n a b : a < 2 ^ n -> b < 2 ^ n -> map (Nat.testbit a) (seq 0 n) = map (Nat.testbit b) (seq 0 n) -> a = b.
Proof.
  intros Ha Hb E. apply Nat.bits_inj. intros k. destruct (Nat.lt_ge_cases k n) as [Hk|Hk]; [|rewrite !(testbit_small _ n) by assumption; reflexivity].
  apply (f_equal (fun l => nth k l false)) in E. rewrite !(nth_indep (map _ _) false (Nat.testbit a 0)) in E by (rewrite map_length, seq_length; exact Hk). rewrite map_nth, seq_nth in E by exact Hk.
  rewrite (nth_indep _ (Nat.testbit a 0) (Nat.testbit b 0)), map_nth, seq_nth in E by (rewrite ?map_length, ?seq_length; exact Hk). exact E.
Qed.
Lemma app_inj_length {A} (a b c d : list A) : length a = length b -> a ++ c = b ++ d -> a = b /\ c = d.
Proof. revert b. induction a as [|x a IH]; intros [|y b] L E; cbn in *; try discriminate; [auto|]. injection E as -> E. destruct (IH b ltac:(lia) E) as (-> & ->). auto. Qed.
Lemma kbits_inj keys vs : fits keys vs -> forall ws, fits keys ws -> kbits keys vs = kbits keys ws -> vs = ws.
Proof.
  intros F. induction F as [|k v keys vs H F IH]; intros ws G E; inversion G as [|? w ? ws' H' G']; subst; [reflexivity|]. cbn [kbits] in E.
  apply app_inj_length in E; [|rewrite !map_length; reflexivity]. destruct E as (E1 & E2). f_equal; [apply (testbits_inj (qsize k)); assumption|apply IH; assumption].
Qed.
Lemma number_inj a b : length a = length b -> number a = number b -> a = b.
Proof. revert b. induction a as [|x a IH]; intros [|y b] L E; cbn in L; try discriminate; [reflexivity|]. cbn [number] in E. f_equal; [destruct x, y; lia || reflexivity|apply IH; [lia|destruct x, y; lia]]. Qed.
Definition flat (keys : list qv) (vs : list nat) : nat := number (kbits keys vs).
Lemma flat_inj keys vs ws : fits keys vs -> fits keys ws -> flat keys vs = flat keys ws -> vs = ws.
Proof. intros F G E. apply (kbits_inj keys); try assumption. apply number_inj; [rewrite !kbits_length by assumption; reflexivity|exact E]. Qed.
Lemma flat_lt keys vs : fits keys vs -> flat keys vs < 2 ^ list_sum (map qsize keys).
Proof. intros F. rewrite <- (kbits_length keys vs F). apply number_lt. Qed.
(** ** the rows *)
Lemma key_bits_tuple keys vs : fits keys vs -> Forall proper keys -> forall pre,
  key_bits (nth_error (pre ++ labels_of keys vs)) (length pre) keys = Some (kbits keys vs).
Proof.
  intros F. induction F as [|k v keys vs H F IH]; intros P pre; [reflexivity|]. inversion P as [|? ? Pk P']; subst. cbn [key_bits labels_of combine map fst snd kbits].
  rewrite nth_error_app2, Nat.sub_diag by lia. cbn [nth_error bind]. rewrite Pk by exact H. cbn [bind]. unfold bits_of. apply Nat.ltb_lt in H. rewrite H. cbn [bind].
  specialize (IH P' (pre ++ [decoder k v])). rewrite app_length in IH. cbn [length] in IH. rewrite <- app_assoc in IH. cbn [app] in IH. rewrite Nat.add_1_r in IH. unfold labels_of in IH. rewrite IH. reflexivity.
Qed.
Lemma row_ok keys vs : fits keys vs -> Forall proper keys -> plain_keys keys -> row_number keys (key_label keys vs) = Some (flat keys vs).
Proof.
  intros F P PK. unfold row_number, key_label. fold (labels_of keys vs).
  assert (G : labels_of keys vs = labels_of keys vs -> forall ls, ls = labels_of keys vs -> bind (key_bits (nth_error ls) 0 keys) (fun b => Some (number b)) = Some (flat keys vs)).
  { intros _ ls ->. pose proof (key_bits_tuple keys vs F P []) as E. cbn [app length] in E. rewrite E. reflexivity. }
  specialize (G eq_refl). inversion F as [|k v keys' vs' H F' E1 E2]; subst; [apply (G []); reflexivity|]. inversion F' as [|k' v' keys'' vs'' H' F'' E1 E2]; subst.
  - cbn [labels_of combine map fst snd]. specialize (PK v). inversion P as [|? ? Pk P']; subst. destruct (decoder k v) as [z|l] eqn:D.
    + cbn [key_bits bind]. rewrite <- D, Pk by exact H. cbn [bind]. unfold bits_of. pose proof H as H2. apply Nat.ltb_lt in H2. rewrite H2. cbn [bind]. unfold flat. cbn [kbits]. reflexivity.
    + exfalso. apply (PK l H). reflexivity.
  - cbn [labels_of combine map fst snd] in *. apply (G _ eq_refl).
Qed.
Lemma constellations_ok keys : constellations keys = map (key_label keys) (product (map (fun k => seq 0 (2 ^ qsize k)) keys)).
Proof.
  assert (PM : forall l : list qv, product (map (fun k => map (decoder k) (seq 0 (2 ^ qsize k))) l) = map (labels_of l) (product (map (fun k => seq 0 (2 ^ qsize k)) l))).
  { induction l as [|k l IH]; [reflexivity|]. cbn [map product]. rewrite IH. generalize (seq 0 (2 ^ qsize k)) as s. induction s as [|i s IHs]; [reflexivity|]. cbn [map flat_map]. rewrite IHs, map_app, !map_map. reflexivity. }
  unfold constellations. destruct keys as [|k [|k' keys]]; [reflexivity| |].
  - cbn [map product]. generalize (seq 0 (2 ^ qsize k)) as s. induction s as [|i s IHs]; [reflexivity|]. cbn [flat_map map app]. rewrite IHs. reflexivity.
  - set (ks := k :: k' :: keys). transitivity (map Tuple (product (map (fun k => map (decoder k) (seq 0 (2 ^ qsize k))) ks))); [reflexivity|]. rewrite PM, map_map. apply map_ext_in. intros vs Hvs.
    unfold key_label. fold (labels_of ks vs). unfold ks in *. cbn [map product] in Hvs. apply in_flat_map in Hvs. destruct Hvs as (a & _ & Hvs). apply in_map_iff in Hvs. destruct Hvs as (r & <- & Hr).
    apply in_flat_map in Hr. destruct Hr as (b & _ & Hr). apply in_map_iff in Hr. destruct Hr as (r' & <- & _). reflexivity.
Qed.
Lemma product_fits keys vs : In vs (product (map (fun k => seq 0 (2 ^ qsize k)) keys)) <-> fits keys vs.
Proof.
  revert vs. induction keys as [|k keys IH]; intros vs; cbn [map product]; [split; [intros [<-|[]]; constructor|intros F; inversion F; left; reflexivity]|]. rewrite in_flat_map. split.
  - intros (i & Hi & H). apply in_map_iff in H. destruct H as (r & <- & Hr). apply in_seq in Hi. constructor; [lia|apply IH, Hr].
  - intros F. inversion F as [|? v ? vs' H F']; subst. exists v. split; [apply in_seq; lia|]. apply in_map, IH, F'.
Qed.
(** ** the table *)
Lemma update_length {A} i (a : A) l : length (update i a l) = length l.
Proof. revert i. induction l as [|x l IH]; intros [|i]; cbn; auto. Qed.
Lemma nth_update {A} (d : A) i a l k : i < length l -> nth k (update i a l) d = if k =? i then a else nth k l d.
Proof. revert i k. induction l as [|x l IH]; intros [|i] k H; cbn in H; try lia; destruct k as [|k]; cbn; try reflexivity. apply IH. lia. Qed.
Lemma Forall_update {A} (P : A -> Prop) i a l : P a -> Forall P l -> Forall P (update i a l).
Proof. intros Pa F. revert i. induction F as [|x l H F IH]; intros [|i]; cbn; constructor; auto. Qed.
Lemma bits_length c m : length (map (Nat.testbit c) (seq 0 m)) = m.
Proof. rewrite map_length, seq_length. reflexivity. Qed.
Definition full_word {V} (d : label -> option V) (venc : V -> option nat) (m : nat) (k : label) : list bool :=
  match d k with Some _ => word d venc m k | None => repeat false m end.
Lemma load_fold {V} keys (d : label -> option V) venc m : Forall proper keys -> plain_keys keys -> encodable keys d venc m ->
  forall l, (forall vs, In vs l -> fits keys vs) -> forall tt, table_of (list_sum (map qsize keys)) m tt ->
  exists tt', fold_left (fill keys d venc m) (map (key_label keys) l) (Some tt) = Some tt' /\ table_of (list_sum (map qsize keys)) m tt' /\
    forall vs, fits keys vs -> (In vs l -> nth (flat keys vs) tt' [] = match d (key_label keys vs) with Some _ => word d venc m (key_label keys vs) | None => nth (flat keys vs) tt [] end) /\
      (~ In vs l -> nth (flat keys vs) tt' [] = nth (flat keys vs) tt []).
Proof.
  intros P PK EN. induction l as [|ws l IH]; intros HL tt T.
  - exists tt. split; [reflexivity|]. split; [exact T|]. intros vs F. split; [intros []|reflexivity].
  - cbn [map fold_left]. assert (FW : fits keys ws) by (apply HL; left; reflexivity).
    assert (HL' : forall vs, In vs l -> fits keys vs) by (intros; apply HL; right; assumption). unfold fill at 2.
    destruct (d (key_label keys ws)) as [v|] eqn:D.
    + cbn [bind]. rewrite row_ok by assumption. cbn [bind]. destruct (EN ws v FW D) as (c & EV & Hc). rewrite EV. cbn [bind]. unfold bits_of. apply Nat.ltb_lt in Hc. rewrite Hc. cbn [bind].
      set (b := map (Nat.testbit c) (seq 0 m)). assert (WB : word d venc m (key_label keys ws) = b) by (unfold word; rewrite D, EV; reflexivity).
      pose proof (flat_lt keys ws FW) as B. destruct T as (TL & TF).
      destruct (IH HL' (update (flat keys ws) b tt)) as (tt' & E & T' & R).
      { split; [rewrite update_length; exact TL|]. apply Forall_update; [apply bits_length|exact TF]. }
      exists tt'. split; [exact E|]. split; [exact T'|]. intros vs F. destruct (R vs F) as (R1 & R2). rewrite nth_update in R1, R2 by (rewrite TL; exact B).
      destruct (Nat.eqb_spec (flat keys vs) (flat keys ws)) as [EQ|NE].
      * apply flat_inj in EQ; try assumption. subst vs. rewrite D in *. split; [|intros N; exfalso; apply N; left; reflexivity]. intros _. destruct (in_dec (list_eq_dec Nat.eq_dec) ws l) as [I|I]; [apply R1, I|rewrite R2 by exact I; symmetry; exact WB].
      * assert (vs <> ws) by (intros ->; apply NE; reflexivity). split; intros I; [apply R1; destruct I as [I|I]; [congruence|exact I]|apply R2; intros C; apply I; right; exact C].
    + destruct (IH HL' tt T) as (tt' & E & T' & R). exists tt'. split; [exact E|]. split; [exact T'|]. intros vs F. destruct (R vs F) as (R1 & R2). split.
      * intros [<-|I]; [|apply R1, I]. rewrite D. destruct (in_dec (list_eq_dec Nat.eq_dec) ws l) as [I|I]; [rewrite R1, D by exact I; reflexivity|apply R2, I].
      * intros I. apply R2. intros C. apply I. right. exact C.
Qed.
Lemma nth_zero_rows m n i : i < n -> nth i (repeat (repeat false m) n) [] = repeat false m.
Proof. revert i. induction n as [|n IH]; intros [|i] H; try lia; [reflexivity|]. cbn. apply IH. lia. Qed.
Lemma load_table_ok {V} keys (d : label -> option V) venc m : Forall proper keys -> plain_keys keys -> encodable keys d venc m ->
  exists tt, load_table keys d venc m = Some tt /\ table_of (list_sum (map qsize keys)) m tt /\
    forall vs, fits keys vs -> nth (flat keys vs) tt [] = full_word d venc m (key_label keys vs).
Proof.
  intros P PK EN. unfold load_table. rewrite constellations_ok.
  destruct (load_fold keys d venc m P PK EN (product (map (fun k => seq 0 (2 ^ qsize k)) keys)) (fun vs H => proj1 (product_fits keys vs) H) (repeat (repeat false m) (2 ^ list_sum (map qsize keys)))) as (tt & E & T & R).
  { split; [apply repeat_length|]. apply Forall_forall. intros r Hr. apply repeat_spec in Hr. subst r. apply repeat_length. }
  exists tt. split; [exact E|]. split; [exact T|]. intros vs F. rewrite (proj1 (R vs F)) by (apply product_fits, F). unfold full_word. destruct (d (key_label keys vs)); [reflexivity|]. apply nth_zero_rows, flat_lt, F.
Qed.
Lemma add_no_bits outs n X : add_bits outs (repeat false n) X = X.
Proof. unfold add_bits. revert n. induction outs as [|o outs IH]; intros [|n]; try reflexivity. cbn [repeat combine fold_right fst snd]. apply IH. Qed.
Lemma add_full_word {V} (d : label -> option V) venc m k outs X : add_bits outs (full_word d venc m k) X = add_bits outs (word d venc m k) X.
Proof. unfold full_word, word. destruct (d k); [reflexivity|]. rewrite add_no_bits. unfold add_bits. destruct outs; reflexivity. Qed.
(** the numbers on the registers *)
Lemma testbit_value r X n : n = length r -> map (Nat.testbit (value r X)) (seq 0 n) = map (tb X) r.
Proof.
  intros ->. unfold value. transitivity (map (tb (N.of_nat (number (map (tb X) r)))) (seq 0 (length (map (tb X) r)))); [|apply map_tb_value]. rewrite map_length. apply map_ext. intros k. symmetry. apply tb_of_nat.
Qed.
Lemma registers_value keys kregs X : registers keys kregs -> fits keys (map (fun r => value r X) kregs) /\ flat keys (map (fun r => value r X) kregs) = value (concat kregs) X.
Proof.
  intros R. assert (G : fits keys (map (fun r => value r X) kregs) /\ kbits keys (map (fun r => value r X) kregs) = map (tb X) (concat kregs)).
  { induction R as [|k r keys kregs L R (F & B)]; [split; [constructor|reflexivity]|]. split.
    - cbn [map]. constructor; [rewrite <- L; apply value_lt|exact F].
    - cbn [map kbits concat]. rewrite B, map_app, testbit_value by (symmetry; exact L). reflexivity. }
  destruct G as (F & B). split; [exact F|]. unfold flat. rewrite B. reflexivity.
Qed.
Lemma registers_length keys kregs : registers keys kregs -> length (concat kregs) = list_sum (map qsize keys).
Proof. intros R. induction R as [|k r keys kregs L R IH]; [reflexivity|]. cbn [concat map list_sum fold_right]. rewrite app_length, L, IH. reflexivity. Qed.
Lemma width_ok n m tt : table_of n m tt -> width tt = m /\ bit_amount tt = n.
Proof.
  intros (L & F). unfold width, bit_amount. rewrite L, Nat.log2_pow2 by lia. split; [|reflexivity]. destruct tt as [|r tt]; [cbn in L; pose proof (pow_pos n); lia|]. inversion F; subst. reflexivity.
Qed.
Lemma q_synth_some ins outs tt s : table_of (length ins) (length outs) tt -> exists c, q_synth ins outs tt s = Some c /\
  c = match s with Gray => gray_logic_synth ins outs tt false | GrayPt => gray_logic_synth ins outs tt true | Pprm => pprm ins outs tt false | PprmPt => pprm ins outs tt true end.
Proof. intros T. destruct (width_ok _ _ _ T) as (W & B). unfold q_synth. rewrite W, B, !Nat.eqb_refl. cbn [negb]. eexists. split; reflexivity. Qed.
Theorem load_ok {V} keys kregs (d : label -> option V) venc vreg s : Forall proper keys -> plain_keys keys -> registers keys kregs -> NoDup (concat kregs ++ vreg) ->
  encodable keys d venc (length vreg) ->
  exists tt c, load keys kregs d venc vreg s = Some c /\ q_synth (concat kregs) vreg tt s = Some c /\ table_of (length (concat kregs)) (length vreg) tt /\
    forall X, looked_up tt (concat kregs) vreg X = add_bits vreg (word d venc (length vreg) (key_label keys (map (fun r => value r X) kregs))) X.
Proof.
  intros P PK R ND EN. destruct (load_table_ok keys d venc (length vreg) P PK EN) as (tt & E & T & W). rewrite <- (registers_length keys kregs R) in T.
  destruct (q_synth_some (concat kregs) vreg tt s T) as (c & C & _). exists tt, c. unfold load. rewrite E. cbn [bind]. split; [exact C|]. split; [exact C|]. split; [exact T|].
  intros X. unfold looked_up. destruct (registers_value keys kregs X R) as (F & EF). rewrite <- EF, W by exact F. apply add_full_word.
Qed.
(** ** cases without conditions, and the circuits that go wrong *)
From Coq Require Import Reals Lra.
From Verif.Gray Require Import GraySpec GrayFinal GrayRange.
From Verif.CtrlOps Require Import CtrlSpec CtrlComplex.
Local Open Scope nat_scope.
Add Ring cplx_ring : complex_ring.
Lemma low_pair n phases b : b < 2 -> least_pair n phases b.
Proof.
  intros Hb p Hp _ _. destruct b as [|[|b]]; [| |lia]; unfold bit in *; cbn in Hp.
  - left. cbn. lia.
  - assert (p = 2 \/ p = 3)%N as [->| ->] by lia; [left; reflexivity|]. right. exists 0. split; [lia|reflexivity].
Qed.
Lemma column_small n tt j b : length tt = 2 ^ n -> n <= 2 -> b <= n -> least_pair (S n) (column_phases n tt j) b.
Proof. intros L Hn Hb. destruct (Nat.eq_dec b n) as [->|]; [apply column_least, L|apply low_pair; lia]. Qed.
Lemma placed_id n l phi X p Y : Forall (gate_ok n) l -> gstate n X -> gstate n Y -> action l X = (p, Y) -> run (map (place (seq 0 n)) l) phi Y = cmul (cexpi p) (phi X).
Proof.
  intros F HX HY A. destruct (placed (seq 0 n) (seq_NoDup n 0) l) with (x := X) (X := X) (psi := phi) as (Z & RZ & OZ & E).
  - rewrite seq_length. exact F.
  - intros k Hk. rewrite seq_length in Hk. rewrite seq_nth by exact Hk. reflexivity.
  - rewrite A in *. cbn [fst snd] in *. replace Y with Z; [exact E|]. apply N_ext. intros k. destruct (Nat.lt_ge_cases k n) as [Hk|Hk].
    + specialize (RZ k). rewrite seq_length, seq_nth in RZ by exact Hk. apply RZ, Hk.
    + rewrite OZ by (intros C; apply in_seq in C; lia). rewrite (proj1 (state_bits n X) HX), (proj1 (state_bits n Y) HY) by exact Hk. reflexivity.
Qed.
Fixpoint gates_in (n : nat) (l : list ggate) : bool :=
  match l with [] => true | GCX c t :: l => (c <? n) && (t <? n) && negb (c =? t) && gates_in n l | GP _ q :: l => (q <? n) && gates_in n l end.
Lemma gates_in_ok n l : gates_in n l = true -> Forall (gate_ok n) l.
Proof.
  induction l as [|[c t|a q] l IH]; cbn [gates_in]; intros H; [constructor| |]; rewrite !andb_true_iff in H.
  - destruct H as (((A & B) & C) & D). constructor; [|apply IH, D]. cbn. apply Nat.ltb_lt in A, B. apply negb_true_iff, Nat.eqb_neq in C. auto.
  - destruct H as (A & B). constructor; [apply Nat.ltb_lt, A|apply IH, B].
Qed.
(** the parity of three bits *)
Definition parity_table : table := map (fun b : bool => [b]) [false; true; true; false; true; false; false; true].
Lemma parity_wrong : exists psi X, run (gray_logic_synth [0; 1; 2] [3] parity_table false) psi X = c0 /\ psi (looked_up parity_table [0; 1; 2] [3] X) = c1.
Proof.
  set (psi := fun x : N => if N.eqb (x mod 8) 2 then c1 else c0). exists psi, 2%N. split; [|reflexivity].
  cbn [gray_logic_synth]. unfold single_qb. set (g := gray_synth_qc _ _ _). change ([0; 1; 2] ++ [3]) with (seq 0 4).
  change (run (LH 3 :: map (place (seq 0 4)) g ++ [LH 3]) psi) with (run (map (place (seq 0 4)) g ++ [LH 3]) (apply (LH 3) psi)). rewrite run_app. change (run [LH 3] ?f 2%N) with (apply (LH 3) f 2%N).
  assert (F : Forall (gate_ok 4) g) by (apply gates_in_ok; vm_compute; reflexivity).
  set (phi := apply (LH 3) psi). cbn [apply]. change (tb 2 3) with false. change (flip 3 2) with 10%N. cbv iota.
  assert (A6 : snd (action g 6%N) = 2%N) by (vm_compute; reflexivity). assert (A14 : snd (action g 14%N) = 10%N) by (vm_compute; reflexivity).
  destruct (action g 6%N) as [p6 y6] eqn:E6. destruct (action g 14%N) as [p14 y14] eqn:E14. cbn [snd] in A6, A14. subst y6 y14.
  rewrite (placed_id 4 g phi 6%N p6 2%N F) by (reflexivity || exact E6). rewrite (placed_id 4 g phi 14%N p14 10%N F) by (reflexivity || exact E14).
  assert (Z6 : phi 6%N = c0) by (unfold phi; cbn [apply]; change (tb 6 3) with false; change (flip 3 6) with 14%N; cbv iota; change (psi 6%N) with c0; change (psi 14%N) with c0; ring).
  assert (Z14 : phi 14%N = c0) by (unfold phi; cbn [apply]; change (tb 14 3) with true; change (flip 3 14) with 6%N; cbv iota; change (psi 6%N) with c0; change (psi 14%N) with c0; ring).
  rewrite Z6, Z14. ring.
Qed.
(** a table whose second output is always zero *)
Definition copy_table : table := [[false; false]; [true; false]; [false; false]; [true; false]].
Lemma copy_fits : table_of 2 2 copy_table.
Proof. split; [reflexivity|repeat constructor]. Qed.
Definition ins2 : list nat := [0; 1].
Lemma copy_wrong : ~ exists k : cplx, forall psi X, run (gray_logic_synth [0; 1] [2; 3] copy_table false) psi X = cmul k (psi (looked_up copy_table [0; 1] [2; 3] X)).
Proof.
  intros (k & H). assert (G : forall psi X, cmul (cexpi ((weight copy_table (value (rev ins2) X) - weight copy_table (value ins2 X)) * half)%Qc) (psi (looked_up copy_table [0; 1] [2; 3] X)) = cmul k (psi (looked_up copy_table [0; 1] [2; 3] X))).
  { intros psi X. rewrite <- H. symmetry. apply gray_ok; [exact copy_fits|repeat constructor; cbn; intuition lia|discriminate|]. intros b Hb. apply low_pair. exact Hb. }
  pose proof (G (fun _ => c1) 0%N) as G0. pose proof (G (fun _ => c1) 3%N) as G3. pose proof (G (fun _ => c1) 1%N) as G1. clear G H. cbv beta in *.
  replace ((weight copy_table (value (rev ins2) 0) - weight copy_table (value ins2 0)) * half)%Qc with 0%Qc in G0 by (vm_compute; apply Qc_is_canon; reflexivity).
  replace ((weight copy_table (value (rev ins2) 1) - weight copy_table (value ins2 1)) * half)%Qc with (- (1 / (1 + 1)))%Qc in G1 by (apply Qc_is_canon; vm_compute; reflexivity).
  assert (E : cexpi (- (1 / (1 + 1)))%Qc = c1).
  { rewrite LookProofs.exp_0 in G0. transitivity (cmul (cexpi (- (1 / (1 + 1)))%Qc) c1); [ring|]. rewrite G1, <- G0. ring. }
  unfold cexpi in E. rewrite angle_opp, angle_half, angle_1, cos_neg, cos_PI2 in E. injection E as E _. lra.
Qed.
