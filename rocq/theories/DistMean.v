(** Means over random numbers. *)
Require Import String List Bool Arith ZArith QArith Qfield Lia Lqa.
From Verif Require Import Base BaseProofs QSpec StateSpec CircuitModel SimModel SimSpec SimProofs DistSpec.
Import ListNotations.
Local Open Scope nat_scope.
Local Open Scope list_scope.

Lemma qsum_app a b : (qsum (a ++ b) == qsum a + qsum b)%Q.
Proof.
  induction a as [|x a IH]; [cbn [app]; change (qsum []) with 0%Q; ring|]. cbn [app]. change (qsum (x :: a ++ b)) with (x + qsum (a ++ b))%Q. rewrite IH.
  change (qsum (x :: a)) with (x + qsum a)%Q. ring.
Qed.
Lemma sum_cons {A} (x : A) l f : (sum_over (x :: l) f == f x + sum_over l f)%Q.
Proof. unfold sum_over. cbn [map qsum fold_right]. reflexivity. Qed.
Lemma sum_nil {A} (f : A -> Q) : sum_over [] f = 0%Q. Proof. reflexivity. Qed.
Lemma sum_app {A} (l l' : list A) f : (sum_over (l ++ l') f == sum_over l f + sum_over l' f)%Q.
Proof. unfold sum_over. rewrite map_app. apply qsum_app. Qed.
Lemma sum_ext {A} (l : list A) f g : (forall x, In x l -> (f x == g x)%Q) -> (sum_over l f == sum_over l g)%Q.
Proof. induction l as [|x l IH]; intros H; [reflexivity|]. rewrite !sum_cons, IH by (intros; apply H; right; auto). rewrite (H x) by (left; auto). reflexivity. Qed.
Lemma sum_map {A B} (h : A -> B) l f : sum_over (map h l) f = sum_over l (fun x => f (h x)).
Proof. unfold sum_over. rewrite map_map. auto. Qed.
Lemma sum_flat {A B} (h : A -> list B) l f : (sum_over (flat_map h l) f == sum_over l (fun x => sum_over (h x) f))%Q.
Proof. induction l as [|x l IH]; [reflexivity|]. cbn [flat_map]. rewrite sum_app, sum_cons, IH. reflexivity. Qed.
Lemma sum_const {A} (l : list A) c : (sum_over l (fun _ => c) == inject_Z (Z.of_nat (List.length l)) * c)%Q.
Proof.
  induction l as [|x l IH]; [cbn; ring|]. rewrite sum_cons, IH. cbn [List.length]. rewrite Nat2Z.inj_succ, <- Z.add_1_l, inject_Z_plus. ring.
Qed.
Lemma sum_scale {A} (l : list A) c f : (sum_over l (fun x => c * f x) == c * sum_over l f)%Q.
Proof. induction l as [|x l IH]; [cbn; ring|]. rewrite !sum_cons, IH. ring. Qed.
Lemma sum_plus {A} (l : list A) f g : (sum_over l (fun x => f x + g x) == sum_over l f + sum_over l g)%Q.
Proof. induction l as [|x l IH]; [cbn; ring|]. rewrite !sum_cons, IH. ring. Qed.

Lemma mean_ext {A} (l : list A) f g : (forall x, In x l -> (f x == g x)%Q) -> (mean l f == mean l g)%Q.
Proof. intros H. unfold mean. rewrite (sum_ext l f g) by auto. reflexivity. Qed.
Lemma inject_nz k : 0 < k -> ~ (inject_Z (Z.of_nat k) == 0)%Q.
Proof. intros H E. unfold Qeq in E. cbn in E. lia. Qed.
Lemma mean_const {A} (l : list A) c : l <> [] -> (mean l (fun _ => c) == c)%Q.
Proof. intros NE. unfold mean. rewrite sum_const. field. apply inject_nz. destruct l; [congruence|cbn; lia]. Qed.

(** * One call *)
Section One.
Variable N : positive.
Let n := Pos.to_nat N.
Lemma n_pos : 0 < n. Proof. apply Pos2Nat.is_pos. Qed.

Lemma sum_draws f : (sum_over (draws N) f == sum_over [false; true] (fun b => sum_over (seq 0 12) (fun z => sum_over (seq 0 n) (fun i => f (mkDraw b (Z.of_nat i # N) z)))))%Q.
Proof.
  unfold draws. rewrite sum_flat. apply sum_ext. intros b _. rewrite sum_flat. apply sum_ext. intros z _. rewrite sum_map. reflexivity.
Qed.
Lemma flat_const {A B} (h : A -> list B) l k : (forall x, In x l -> List.length (h x) = k) -> List.length (flat_map h l) = List.length l * k.
Proof. induction l as [|x l IH]; intros H; auto. cbn [flat_map]. rewrite app_length, IH, (H x) by (try (left; auto); intros; apply H; right; auto). cbn. lia. Qed.
Lemma draws_length : List.length (draws N) = 24 * n.
Proof.
  unfold draws. rewrite (flat_const _ _ (12 * n)).
  - cbn [List.length]. lia.
  - intros b _. rewrite (flat_const _ _ n); [rewrite seq_length; auto|]. intros z _. rewrite map_length, seq_length. auto.
Qed.
Lemma draws_nonempty : draws N <> [].
Proof. intros E. pose proof draws_length as L. rewrite E in L. cbn in L. pose proof n_pos. lia. Qed.
Lemma inject_24 : (inject_Z (Z.of_nat (24 * n)) == 24 * inject_Z (Z.pos N))%Q.
Proof. unfold n. rewrite Nat2Z.inj_mul, inject_Z_mult, positive_nat_Z. reflexivity. Qed.
Lemma nN : (inject_Z (Z.of_nat n) == inject_Z (Z.pos N))%Q. Proof. unfold n. rewrite positive_nat_Z. reflexivity. Qed.
Lemma N_nz : ~ (inject_Z (Z.pos N) == 0)%Q. Proof. intros E. unfold Qeq in E. cbn in E. lia. Qed.

Lemma mean_bit f h : (forall d, (f d == h (d_bit d))%Q) -> (mean (draws N) f == (1 # 2) * h false + (1 # 2) * h true)%Q.
Proof.
  intros H. unfold mean. rewrite sum_draws, draws_length, inject_24.
  rewrite (sum_ext _ _ (fun b => 12 * inject_Z (Z.pos N) * h b)%Q).
  - rewrite !sum_cons, sum_nil. field. apply N_nz.
  - intros b _. rewrite (sum_ext _ _ (fun _ => inject_Z (Z.pos N) * h b)%Q).
    + rewrite sum_const, seq_length. change (inject_Z (Z.of_nat 12)) with 12%Q. ring.
    + intros z _. rewrite (sum_ext _ _ (fun _ => h b)) by (intros; apply H). rewrite sum_const, seq_length, nN. ring.
Qed.
Lemma mean_unif f h : (forall d, (f d == h (d_unif d))%Q) ->
  (mean (draws N) f == sum_over (seq 0 n) (fun i => h (Z.of_nat i # N)) / inject_Z (Z.pos N))%Q.
Proof.
  intros H. unfold mean. rewrite sum_draws, draws_length, inject_24.
  rewrite (sum_ext _ _ (fun b => 12 * sum_over (seq 0 n) (fun i => h (Z.of_nat i # N)))%Q).
  - rewrite !sum_cons, sum_nil. field. apply N_nz.
  - intros b _. rewrite (sum_ext _ _ (fun _ => sum_over (seq 0 n) (fun i => h (Z.of_nat i # N)))).
    + rewrite sum_const, seq_length. change (inject_Z (Z.of_nat 12)) with 12%Q. ring.
    + intros z _. apply sum_ext. intros; apply H.
Qed.
Lemma mean_int f h : (forall d, (f d == h (d_int d))%Q) -> (mean (draws N) f == (1 # 12) * sum_over (seq 0 12) h)%Q.
Proof.
  intros H. unfold mean. rewrite sum_draws, draws_length, inject_24.
  rewrite (sum_ext _ _ (fun b => inject_Z (Z.pos N) * sum_over (seq 0 12) h)%Q).
  - rewrite !sum_cons, sum_nil. field. apply N_nz.
  - intros b _. rewrite <- sum_scale. apply sum_ext. intros z _. rewrite (sum_ext _ _ (fun _ => h z)) by (intros; apply H). rewrite sum_const, seq_length, nN. reflexivity.
Qed.
Lemma mean_mod3 f h : (forall d, (f d == h (d_int d mod 3))%Q) -> (mean (draws N) f == sum_over (seq 0 3) (fun z => (1 # 3) * h z))%Q.
Proof.
  intros H. rewrite (mean_int f (fun z => h (z mod 3))) by auto. cbn [seq]. rewrite !sum_cons, !sum_nil.
  change (0 mod 3) with 0. change (1 mod 3) with 1. change (2 mod 3) with 2. change (3 mod 3) with 0. change (4 mod 3) with 1. change (5 mod 3) with 2.
  change (6 mod 3) with 0. change (7 mod 3) with 1. change (8 mod 3) with 2. change (9 mod 3) with 0. change (10 mod 3) with 1. change (11 mod 3) with 2. field.
Qed.
Lemma mean_mod4 f h : (forall d, (f d == h (d_int d mod 4))%Q) -> (mean (draws N) f == sum_over (seq 0 4) (fun z => (1 # 4) * h z))%Q.
Proof.
  intros H. rewrite (mean_int f (fun z => h (z mod 4))) by auto. cbn [seq]. rewrite !sum_cons, !sum_nil.
  change (0 mod 4) with 0. change (1 mod 4) with 1. change (2 mod 4) with 2. change (3 mod 4) with 3. change (4 mod 4) with 0. change (5 mod 4) with 1.
  change (6 mod 4) with 2. change (7 mod 4) with 3. change (8 mod 4) with 0. change (9 mod 4) with 1. change (10 mod 4) with 2. change (11 mod 4) with 3. field.
Qed.

(** Consecutive intervals of multiples of 1/N. *)
Lemma grid_lt i a : ((Z.of_nat i # N) < (Z.of_nat a # N))%Q <-> i < a.
Proof. unfold Qlt. cbn. split; intros H; [nia|]. apply Z.mul_lt_mono_pos_r; lia. Qed.
Lemma grid_plus a b : ((Z.of_nat a # N) + (Z.of_nat b # N) == (Z.of_nat (a + b) # N))%Q.
Proof. unfold Qeq, Qplus. cbn [Qnum Qden]. rewrite Nat2Z.inj_add, Pos2Z.inj_mul. ring. Qed.
Lemma grid_value a : ((Z.of_nat a # N) == inject_Z (Z.of_nat a) / inject_Z (Z.pos N))%Q.
Proof. rewrite (Qmake_Qdiv (Z.of_nat a) N). reflexivity. Qed.

Lemma pick_sum (h : nat -> Q) : forall (ps : list Q) (js : list nat) (acc : Q) (c idx : nat), Forall2 (fun p (j : nat) => p == Z.of_nat j # N)%Q ps js -> (acc == Z.of_nat c # N)%Q ->
  (sum_over (seq c (fold_right Nat.add 0%nat js)) (fun i => h (pick (Z.of_nat i # N) acc ps idx)) ==
   inject_Z (Z.pos N) * sum_over (seq 0%nat (List.length ps)) (fun j => nth j ps 0%Q * h (idx + j)%nat))%Q.
Proof.
  intros ps js acc c idx F. revert acc c idx. induction F as [|p j ps js E F IH]; intros acc c idx A.
  - cbn. ring.
  - cbn [fold_right List.length]. rewrite seq_app, sum_app.
    rewrite (sum_ext (seq c j) _ (fun _ => h idx)).
    + rewrite sum_const, seq_length.
      rewrite (sum_ext (seq (c + j) _) _ (fun i => h (pick (Z.of_nat i # N) (acc + p)%Q ps (Datatypes.S idx)))).
      * rewrite (IH (acc + p)%Q (c + j) (Datatypes.S idx)) by (rewrite A, E; apply grid_plus).
        cbn [seq]. rewrite sum_cons. cbn [nth]. rewrite Nat.add_0_r. rewrite <- seq_shift, sum_map. cbn [nth].
        rewrite (sum_ext (seq 0 (List.length ps)) (fun x => nth x ps 0 * h (idx + Datatypes.S x)%nat)%Q (fun x => nth x ps 0 * h (Datatypes.S idx + x)%nat)%Q).
        -- assert (EE : (p == inject_Z (Z.of_nat j) / inject_Z (Z.pos N))%Q) by (rewrite <- grid_value; auto). rewrite EE. field. apply N_nz.
        -- intros x _. replace (idx + Datatypes.S x) with (Datatypes.S idx + x) by lia. reflexivity.
      * intros i I. apply in_seq in I. cbn [pick]. rewrite (proj2 (Qltb_ge _ _)); [reflexivity|]. rewrite A, E, grid_plus. apply Qnot_lt_le. rewrite grid_lt. lia.
    + intros i I. apply in_seq in I. cbn [pick]. rewrite (proj2 (Qltb_lt _ _)); [reflexivity|]. rewrite A, E, grid_plus, grid_lt. lia.
Qed.

Lemma grid_list ps : Forall (on_grid N) ps -> exists js : list nat, Forall2 (fun p (j : nat) => p == Z.of_nat j # N)%Q ps js.
Proof. induction 1 as [|p ps (_ & a & E) _ (js & F)]; [exists []|exists (a :: js)]; constructor; auto. Qed.
Lemma grid_sum ps js : Forall2 (fun p (j : nat) => p == Z.of_nat j # N)%Q ps js -> (qsum ps == Z.of_nat (fold_right Nat.add 0%nat js) # N)%Q.
Proof. induction 1 as [|p j ps js E F IH]; [cbn; reflexivity|]. cbn [qsum fold_right]. fold (qsum ps). rewrite IH, E. apply grid_plus. Qed.
Lemma grid_one : (1 == Z.of_nat n # N)%Q.
Proof. unfold Qeq, n. cbn. rewrite positive_nat_Z. lia. Qed.

Lemma mean_choice f h ps : Forall (on_grid N) ps -> (qsum ps <= 1)%Q ->
  (forall d, (f d == h (pick (d_unif d) 0 ((1 - Qsum ps)%Q :: ps) 0%nat))%Q) ->
  (mean (draws N) f == sum_over (seq 0%nat (Datatypes.S (List.length ps))) (fun j => prob_k ps j * h j))%Q.
Proof.
  intros G S1 H. destruct (grid_list ps G) as (js & F). pose proof (grid_sum ps js F) as GS. set (s := fold_right Nat.add 0 js) in *.
  assert (LE : s <= n). { destruct (Nat.le_gt_cases s n); auto. exfalso. rewrite GS, grid_one in S1. apply (Qlt_not_le (Z.of_nat n # N) (Z.of_nat s # N)); auto. apply grid_lt. auto. }
  assert (F' : Forall2 (fun p (j : nat) => p == Z.of_nat j # N)%Q ((1 - Qsum ps)%Q :: ps) ((n - s) :: js)).
  { constructor; auto. rewrite Qsum_qsum, GS, grid_one. assert (E := grid_plus (n - s) s). replace (n - s + s) with n in E by lia. rewrite <- E. ring. }
  rewrite (mean_unif f (fun u => h (pick u 0 ((1 - Qsum ps)%Q :: ps) 0%nat)) H). assert (T : fold_right Nat.add 0 ((n - s) :: js) = n) by (cbn [fold_right]; fold s; lia).
  rewrite <- T at 1. rewrite (pick_sum h _ _ 0%Q 0 0 F') by (cbn; reflexivity).
  cbn [List.length]. rewrite (sum_ext _ (fun j => nth j ((1 - Qsum ps)%Q :: ps) 0 * h (0 + j)%nat)%Q (fun j => prob_k ps j * h j)%Q).
  - field. apply N_nz.
  - intros j _. unfold prob_k. destruct j; cbn [nth Nat.add]; [rewrite Qsum_qsum|]; reflexivity.
Qed.
Lemma mean_coin f p a b : on_grid N p -> (forall d, (f d == if Qltb (d_unif d) p then a else b)%Q) -> (mean (draws N) f == p * a + (1 - p) * b)%Q.
Proof.
  intros ((P0 & P1) & c & E) H. rewrite (mean_unif f (fun u => if Qltb u p then a else b)) by auto.
  assert (LE : c <= n). { destruct (Nat.le_gt_cases c n); auto. exfalso. rewrite E, grid_one in P1. apply (Qlt_not_le (Z.of_nat n # N) (Z.of_nat c # N)); auto. apply grid_lt. auto. }
  replace n with (c + (n - c)) by lia. rewrite seq_app, sum_app. cbn [Nat.add].
  rewrite (sum_ext (seq 0 c) _ (fun _ => a)), (sum_ext (seq c (n - c)) _ (fun _ => b)).
  - rewrite !sum_const, !seq_length. assert (EE : (p == inject_Z (Z.of_nat c) / inject_Z (Z.pos N))%Q) by (rewrite <- grid_value; auto).
    rewrite Nat2Z.inj_sub by auto. unfold Zminus. rewrite inject_Z_plus, inject_Z_opp, nN, EE. field. apply N_nz.
  - intros i I. apply in_seq in I. rewrite (proj2 (Qltb_ge _ _)); [reflexivity|]. rewrite E. apply Qnot_lt_le. rewrite grid_lt. lia.
  - intros i I. apply in_seq in I. rewrite (proj2 (Qltb_lt _ _)); [reflexivity|]. rewrite E, grid_lt. lia.
Qed.

(** * Sequences of calls *)
Definition local (k : nat) (F : rng -> Q) : Prop := forall g g', (forall j, k <= j -> g j = g' j) -> (F g == F g')%Q.
Definition Ex (m k : nat) (F : rng -> Q) : Q := mean (sequences N m) (fun l => F (stream k l)).

Lemma sequences_length m : List.length (sequences N m) = (24 * n) ^ m.
Proof.
  induction m as [|m IH]; auto. cbn [sequences]. rewrite (flat_const _ _ ((24 * n) ^ m)), draws_length; auto. intros d _. rewrite map_length. auto.
Qed.
Lemma sequences_nonempty m : sequences N m <> [].
Proof. intros E. pose proof (sequences_length m) as L. rewrite E in L. cbn [List.length] in L. symmetry in L. apply (Nat.pow_nonzero (24 * n) m) in L; auto. pose proof n_pos. lia. Qed.
Lemma Ex_ext m k F G : (forall g, (F g == G g)%Q) -> (Ex m k F == Ex m k G)%Q.
Proof. intros H. apply mean_ext. intros; apply H. Qed.
Lemma Ex_const m k c : (Ex m k (fun _ => c) == c)%Q.
Proof. apply (mean_const (sequences N m) c), sequences_nonempty. Qed.
Lemma Ex_step m k F H : (forall g, (F g == H (g k) g)%Q) -> (forall d, local (Datatypes.S k) (H d)) ->
  (Ex (Datatypes.S m) k F == mean (draws N) (fun d => Ex m (Datatypes.S k) (H d)))%Q.
Proof.
  intros E L. unfold Ex at 1, mean at 1. cbn [sequences]. rewrite sum_flat.
  rewrite (flat_const _ _ ((24 * n) ^ m)) by (intros d _; rewrite map_length; apply sequences_length). rewrite draws_length.
  unfold mean at 1. rewrite draws_length.
  rewrite (sum_ext _ (fun d => Ex m (Datatypes.S k) (H d)) (fun d => (1 / inject_Z (Z.of_nat ((24 * n) ^ m))) * sum_over (map (cons d) (sequences N m)) (fun l => F (stream k l)))%Q).
  - rewrite sum_scale, Nat2Z.inj_mul, inject_Z_mult. field. split; apply inject_nz; [pose proof (Nat.pow_nonzero (24 * n) m)|]; pose proof n_pos; lia.
  - intros d _. unfold Ex, mean. rewrite sequences_length, sum_map.
    rewrite (sum_ext (sequences N m) (fun l => F (stream k (d :: l))) (fun l => H d (stream (Datatypes.S k) l))).
    + field. apply inject_nz. pose proof (Nat.pow_nonzero (24 * n) m). pose proof n_pos. lia.
    + intros l _. rewrite E. replace (stream k (d :: l) k) with d by (unfold stream; rewrite Nat.sub_diag; auto). apply L. intros j Lj. unfold stream. replace (j - k) with (Datatypes.S (j - Datatypes.S k)) by lia. auto.
Qed.
End One.
