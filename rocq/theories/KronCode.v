(** What the gemm sequence of Lap_Kron leaves in [out]. *)
From Coq Require Import Arith List Bool Lia ZArith Ring Ring_theory.
From Verif Require Import CBase Kron KronLem.
Import ListNotations.

Lemma idx_mod ld i j : i < ld -> (i + ld * j) mod ld = i.
Proof. intros H. rewrite (Nat.mul_comm ld). rewrite Nat.mod_add by lia. apply Nat.mod_small; exact H. Qed.
Lemma idx_div ld i j : i < ld -> (i + ld * j) / ld = j.
Proof. intros H. rewrite (Nat.mul_comm ld). rewrite Nat.div_add by lia. rewrite Nat.div_small by exact H. reflexivity. Qed.

Section Ring.
  Variables (K : Type) (zero : K) (add mul : K -> K -> K).
  Variable conj : K -> K.
  Notation sum := (sumn K zero add).
  Notation buf := (buf K).
  Notation gemm := (gemm K zero add mul conj).
  Notation elem := (elem K conj).
  Notation "0" := zero. Infix "*" := mul.

  Lemma gemm_spec tA tB M N Kd (A : buf) offA lda (B : buf) offB ldb (C : buf) offC ldc :
    stored K tA A offA lda M Kd = true -> stored K tB B offB ldb Kd N = true -> fits K C offC ldc M N = true ->
    exists C', gemm tA tB M N Kd A offA lda B offB ldb C offC ldc = Ok C' /\ cap C' = cap C /\
      (forall i j, (i < M)%nat -> (j < N)%nat ->
         dat C' (offC + (i + Nat.mul ldc j)) = sum Kd (fun l => elem tA A offA lda i l * elem tB B offB ldb l j)) /\
      (forall x, (x < offC \/ offC + Nat.mul ldc N <= x)%nat -> dat C' x = dat C x).
  Proof.
    intros HA HB HC. unfold Kron.gemm. rewrite HA, HB, HC. cbn [andb]. eexists. split; [reflexivity|]. split; [reflexivity|].
    unfold fits in HC. rewrite !andb_true_iff in HC. destruct HC as [[[H1 H2] H3] H4].
    apply Nat.leb_le in H1, H2, H3, H4. split.
    - intros i j Hi Hj. cbn [dat]. destruct (Nat.leb_spec offC (offC + (i + ldc * j))); [|lia].
      replace (offC + (i + ldc * j) - offC)%nat with (i + ldc * j)%nat by lia. cbv zeta.
      rewrite idx_mod, idx_div by lia. destruct (Nat.ltb_spec i M); [|lia]. destruct (Nat.ltb_spec j N); [|lia]. reflexivity.
    - intros x Hx. cbn [dat]. destruct (Nat.leb_spec offC x); [|reflexivity]. cbv zeta.
      destruct (Nat.ltb_spec ((x - offC) / ldc) N) as [L|L]; [|rewrite andb_false_r; reflexivity].
      exfalso. assert (ldc <> 0%nat) by lia. pose proof (Nat.div_mod (x - offC) ldc ltac:(assumption)) as D.
      pose proof (Nat.mod_upper_bound (x - offC) ldc ltac:(assumption)). nia.
  Qed.

  Section Dims.
    Variables Nx Ny Nz : nat.
    Hypothesis (Px : (1 <= Nx)%nat) (Py : (1 <= Ny)%nat) (Pz : (1 <= Nz)%nat).
    Notation NxNy := (Nat.mul Nx Ny).
    Lemma fits_full (A : buf) off r c : (1 <= r)%nat -> (1 <= c)%nat -> (off + Nat.mul r c <= cap A)%nat -> fits K A off r r c = true.
    Proof.
      intros Hr Hc H. unfold fits. rewrite !andb_true_iff. repeat split; apply Nat.leb_le; try lia.
      destruct c; [lia|]. replace (S c - 1)%nat with c by lia. lia.
    Qed.
    (** one slab: two products *)
    Lemma slab tA tB (S X Y T O : buf) k :
      (Nat.mul (k + 1) NxNy <= cap S)%nat -> (Nat.mul Ny Ny <= cap Y)%nat -> (Nat.mul Nx Nx <= cap X)%nat ->
      (NxNy <= cap T)%nat -> (Nat.mul (k + 1) NxNy <= cap O)%nat ->
      exists t o,
        gemm NoTrans tB Nx Ny Ny S (k * NxNy)%nat Nx Y 0%nat Ny T 0%nat Nx = Ok t /\
        gemm tA NoTrans Nx Ny Nx X 0%nat Nx t 0%nat Nx O (k * NxNy)%nat Nx = Ok o /\ cap t = cap T /\ cap o = cap O /\
        (forall i j, (i < Nx)%nat -> (j < Ny)%nat ->
          dat o (k * NxNy + (i + Nat.mul Nx j))%nat
          = sum Nx (fun a => elem tA X 0%nat Nx i a * sum Ny (fun b => dat S (k * NxNy + (a + Nat.mul Nx b))%nat * elem tB Y 0%nat Ny b j))) /\
        (forall x, (x < k * NxNy \/ (k + 1) * NxNy <= x)%nat -> dat o x = dat O x).
    Proof.
      intros HS HY HX HT HO.
      assert (F1 : stored K tB Y 0%nat Ny Ny Ny = true) by (destruct tB; cbn; apply fits_full; lia).
      assert (F2 : stored K tA X 0%nat Nx Nx Nx = true) by (destruct tA; cbn; apply fits_full; lia).
      destruct (gemm_spec NoTrans tB Nx Ny Ny S (k * NxNy)%nat Nx Y 0%nat Ny T 0%nat Nx) as [t [Et [Ct [Vt _]]]]; auto.
      { apply fits_full; lia. } { apply fits_full; lia. }
      destruct (gemm_spec tA NoTrans Nx Ny Nx X 0%nat Nx t 0%nat Nx O (k * NxNy)%nat Nx) as [o [Eo [Co [Vo Uo]]]]; auto.
      { apply fits_full; lia. } { apply fits_full; lia. }
      exists t, o. repeat split; auto.
      - intros i j Hi Hj. rewrite Vo by assumption. apply sum_ext; intros a Ha. f_equal.
        cbn [Kron.elem]. rewrite (Vt a j Ha Hj). reflexivity.
      - intros x Hx. apply Uo. lia.
    Qed.

    (** the common shape of the two C functions *)
    Definition kron_gen (tA : trans) (Y1 Z1 Vx Vy Vz vec diag out : buf) (j1 j2 : nat -> K) : outcome buf :=
      if (INT_MAX <? Z.of_nat Nx * Z.of_nat Ny * Z.of_nat Nz)%Z then UB else
      do s1 <- for_k (seq 0%nat Nz) (fun (s : buf * buf) k =>
          do t <- gemm NoTrans NoTrans Nx Ny Ny vec (k * NxNy)%nat Nx Y1 0%nat Ny (fst s) 0%nat Nx ;
          do o <- gemm tA NoTrans Nx Ny Nx Vx 0%nat Nx t 0%nat Nx (snd s) (k * NxNy)%nat Nx ;
          Ok (t, o)) (Buf NxNy j1, out) ;
      do P <- gemm NoTrans NoTrans NxNy Nz Nz (snd s1) 0%nat NxNy Z1 0%nat Nz (Buf (NxNy * Nz)%nat j2) 0%nat NxNy ;
      do P <- scale_by K mul (NxNy * Nz)%nat P diag ;
      do s2 <- for_k (seq 0%nat Nz) (fun (s : buf * buf) k =>
          do t <- gemm NoTrans Trans Nx Ny Ny (snd s) (k * NxNy)%nat Nx Vy 0%nat Ny (fst s) 0%nat Nx ;
          do o <- gemm NoTrans NoTrans Nx Ny Nx Vx 0%nat Nx t 0%nat Nx (snd s) (k * NxNy)%nat Nx ;
          Ok (t, o)) (fst s1, P) ;
      gemm NoTrans Trans NxNy Nz Nz (snd s2) 0%nat NxNy Vz 0%nat Nz (snd s1) 0%nat NxNy.

    Lemma loop1 tA (S X Y T O : buf) :
      (NxNy * Nz <= cap S)%nat -> (Ny * Ny <= cap Y)%nat -> (Nx * Nx <= cap X)%nat -> (NxNy <= cap T)%nat -> (NxNy * Nz <= cap O)%nat ->
      forall n m s, (m + n <= Nz)%nat -> cap (fst s) = cap T -> cap (snd s) = cap O ->
      (forall k i j, (k < m)%nat -> (i < Nx)%nat -> (j < Ny)%nat ->
          dat (snd s) (k * NxNy + (i + Nx * j))%nat
          = sum Nx (fun a => elem tA X 0%nat Nx i a * sum Ny (fun b => dat S (k * NxNy + (a + Nx * b))%nat * elem NoTrans Y 0%nat Ny b j))) ->
      exists s', for_k (seq m n) (fun (s : buf * buf) k =>
          do t <- gemm NoTrans NoTrans Nx Ny Ny S (k * NxNy)%nat Nx Y 0%nat Ny (fst s) 0%nat Nx ;
          do o <- gemm tA NoTrans Nx Ny Nx X 0%nat Nx t 0%nat Nx (snd s) (k * NxNy)%nat Nx ;
          Ok (t, o)) s = Ok s' /\ cap (fst s') = cap T /\ cap (snd s') = cap O /\
      (forall k i j, (k < m + n)%nat -> (i < Nx)%nat -> (j < Ny)%nat ->
          dat (snd s') (k * NxNy + (i + Nx * j))%nat
          = sum Nx (fun a => elem tA X 0%nat Nx i a * sum Ny (fun b => dat S (k * NxNy + (a + Nx * b))%nat * elem NoTrans Y 0%nat Ny b j))).
    Proof.
      intros HS HY HX HT HO. induction n as [|n IH]; intros m s Hm C1 C2 H.
      - exists s. cbn. repeat split; auto. intros. apply H; auto. lia.
      - cbn [seq for_k].
        destruct (slab tA NoTrans S X Y (fst s) (snd s) m) as [t [o [Et [Eo [Ct [Co [V U]]]]]]]; try lia; try nia.
        rewrite Et. cbn [obind]. rewrite Eo. cbn [obind].
        destruct (IH (Datatypes.S m) (t, o)) as [s' [E' [C1' [C2' V']]]].
        + lia. + cbn; congruence. + cbn; congruence.
        + intros k i j Hk Hi Hj. cbn [snd]. destruct (Nat.eq_dec k m) as [->|Nk].
          * apply V; assumption.
          * rewrite U by nia. apply H; auto. lia.
        + exists s'. split; [exact E'|]. repeat split; auto. intros. apply V'; auto. lia.
    Qed.
    Lemma loop2 (X Y T P : buf) :
      (Ny * Ny <= cap Y)%nat -> (Nx * Nx <= cap X)%nat -> (NxNy <= cap T)%nat -> (NxNy * Nz <= cap P)%nat ->
      forall n m s, (m + n <= Nz)%nat -> cap (fst s) = cap T -> cap (snd s) = cap P ->
      (forall k i j, (k < m)%nat -> (i < Nx)%nat -> (j < Ny)%nat ->
          dat (snd s) (k * NxNy + (i + Nx * j))%nat
          = sum Nx (fun a => elem NoTrans X 0%nat Nx i a * sum Ny (fun b => dat P (k * NxNy + (a + Nx * b))%nat * elem Trans Y 0%nat Ny b j))) ->
      (forall x, (m * NxNy <= x)%nat -> dat (snd s) x = dat P x) ->
      exists s', for_k (seq m n) (fun (s : buf * buf) k =>
          do t <- gemm NoTrans Trans Nx Ny Ny (snd s) (k * NxNy)%nat Nx Y 0%nat Ny (fst s) 0%nat Nx ;
          do o <- gemm NoTrans NoTrans Nx Ny Nx X 0%nat Nx t 0%nat Nx (snd s) (k * NxNy)%nat Nx ;
          Ok (t, o)) s = Ok s' /\ cap (snd s') = cap P /\
      (forall k i j, (k < m + n)%nat -> (i < Nx)%nat -> (j < Ny)%nat ->
          dat (snd s') (k * NxNy + (i + Nx * j))%nat
          = sum Nx (fun a => elem NoTrans X 0%nat Nx i a * sum Ny (fun b => dat P (k * NxNy + (a + Nx * b))%nat * elem Trans Y 0%nat Ny b j))).
    Proof.
      intros HY HX HT HP. induction n as [|n IH]; intros m s Hm C1 C2 H U0.
      - exists s. cbn. repeat split; auto. intros. apply H; auto. lia.
      - cbn [seq for_k].
        destruct (slab NoTrans Trans (snd s) X Y (fst s) (snd s) m) as [t [o [Et [Eo [Ct [Co [V U]]]]]]]; try lia; try nia.
        rewrite Et. cbn [obind]. rewrite Eo. cbn [obind].
        destruct (IH (Datatypes.S m) (t, o)) as [s' [E' [C2' V']]].
        + lia. + cbn; congruence. + cbn; congruence.
        + intros k i j Hk Hi Hj. cbn [snd]. destruct (Nat.eq_dec k m) as [->|Nk].
          * rewrite V by assumption. apply sum_ext; intros a Ha. f_equal. apply sum_ext; intros b Hb. f_equal. apply U0. lia.
          * rewrite U by nia. apply H; auto. lia.
        + intros x Hx. cbn [snd]. rewrite U by nia. apply U0. nia.
        + exists s'. split; [exact E'|]. repeat split; auto. intros. apply V'; auto. lia.
    Qed.

    Definition grid (f : nat -> K) (i j k : nat) : K := f (k * NxNy + (i + Nx * j))%nat.
    Lemma kron_gen_spec tA (Y1 Z1 Vx Vy Vz vec diag out : buf) j1 j2 :
      (Z.of_nat Nx * Z.of_nat Ny * Z.of_nat Nz <= INT_MAX)%Z ->
      (NxNy * Nz <= cap vec)%nat -> (NxNy * Nz <= cap diag)%nat -> (NxNy * Nz <= cap out)%nat ->
      (Nx * Nx <= cap Vx)%nat -> (Ny * Ny <= cap Vy)%nat -> (Nz * Nz <= cap Vz)%nat ->
      (Ny * Ny <= cap Y1)%nat -> (Nz * Nz <= cap Z1)%nat ->
      exists r, kron_gen tA Y1 Z1 Vx Vy Vz vec diag out j1 j2 = Ok r /\ cap r = cap out /\
        forall i j k, (i < Nx)%nat -> (j < Ny)%nat -> (k < Nz)%nat ->
          grid (dat r) i j k
          = T K zero add mul Nx Ny Nz (elem NoTrans Vx 0%nat Nx) (elem NoTrans Vy 0%nat Ny) (elem NoTrans Vz 0%nat Nz)
              (fun i a => elem tA Vx 0%nat Nx a i) (elem NoTrans Y1 0%nat Ny) (elem NoTrans Z1 0%nat Nz)
              (grid (dat diag)) (grid (dat vec)) i j k.
    Proof.
      intros HI Hv Hd Ho HX HY HZ HY1 HZ1. unfold kron_gen.
      destruct (Z.ltb_spec INT_MAX (Z.of_nat Nx * Z.of_nat Ny * Z.of_nat Nz)); [lia|].
      destruct (loop1 tA vec Vx Y1 (Buf NxNy j1) out Hv HY1 HX ltac:(cbn; lia) Ho Nz 0%nat (Buf NxNy j1, out)) as [s1 [E1 [C1 [C1' V1]]]];
        [lia|reflexivity|reflexivity|intros; lia|].
      rewrite E1. cbn [obind]. cbn [cap] in C1.
      assert (Pxy : (1 <= NxNy)%nat) by nia.
      destruct (gemm_spec NoTrans NoTrans NxNy Nz Nz (snd s1) 0%nat NxNy Z1 0%nat Nz (Buf (NxNy * Nz)%nat j2) 0%nat NxNy) as [P [EP [CP [VP _]]]].
      { apply fits_full; try lia. } { apply fits_full; try lia. } { apply fits_full; cbn [cap]; lia. }
      rewrite EP. cbn [obind]. cbn [cap] in CP. unfold scale_by. rewrite CP, Nat.leb_refl.
      destruct (Nat.leb_spec (NxNy * Nz) (cap diag)); [|lia]. cbn [andb obind].
      set (Pd := Buf _ _).
      destruct (loop2 Vx Vy (Buf NxNy j1) Pd HY HX ltac:(cbn; lia) ltac:(cbn; lia) Nz 0%nat (fst s1, Pd)) as [s2 [E2 [C2 V2]]];
        [lia|cbn; exact C1|reflexivity|intros; lia|reflexivity|].
      rewrite E2. cbn [obind].
      destruct (gemm_spec NoTrans Trans NxNy Nz Nz (snd s2) 0%nat NxNy Vz 0%nat Nz (snd s1) 0%nat NxNy) as [r [Er [Cr [Vr _]]]].
      { apply fits_full; try lia. rewrite C2. cbn. lia. } { apply fits_full; try lia. } { apply fits_full; try lia. }
      exists r. split; [exact Er|]. split; [congruence|]. intros i j k Hi Hj Hk. unfold grid at 1.
      replace (k * NxNy + (i + Nx * j))%nat with (0 + ((i + Nx * j) + NxNy * k))%nat by lia.
      rewrite Vr; [|nia|exact Hk]. unfold T. apply sum_ext; intros c Hc. f_equal.
      cbn [Kron.elem]. replace (0 + (i + Nx * j + NxNy * c))%nat with (c * NxNy + (i + Nx * j))%nat by lia.
      rewrite V2 by (assumption || lia). apply sum_ext; intros a Ha. f_equal. apply sum_ext; intros b Hb. cbn [Kron.elem]. f_equal.
      unfold Pd. cbn [dat]. destruct (Nat.ltb_spec (c * NxNy + (a + Nx * b)) (NxNy * Nz)); [|nia]. unfold grid at 2. f_equal.
      replace (c * NxNy + (a + Nx * b))%nat with (0 + ((a + Nx * b) + NxNy * c))%nat at 1 by lia.
      rewrite VP; [|nia|exact Hc]. apply sum_ext; intros k' Hk'. f_equal. cbn [Kron.elem].
      replace (0 + (a + Nx * b + NxNy * k'))%nat with (k' * NxNy + (a + Nx * b))%nat by lia.
      rewrite V1 by (assumption || lia). reflexivity.
    Qed.

    (** ** eigval_Lap_3D *)
    Definition inb (c n x : nat) : bool := ((c <=? x) && (x <? c + n))%nat.
    Definition stepsto (c n : nat) (g : nat -> K -> K) (f : nat -> K) (r : nat * (nat -> K)) : Prop :=
      fst r = (c + n)%nat /\ forall x, snd r x = if inb c n x then g (x - c)%nat (f x) else f x.
    Lemma pass (step : nat * (nat -> K) -> nat -> nat * (nat -> K)) n (g : nat -> nat -> K -> K) : (1 <= n)%nat ->
      (forall c f k, stepsto c n (g k) f (step (c, f) k)) ->
      forall m a c f, stepsto c (m * n) (fun o v => g (a + o / n)%nat (o mod n)%nat v) f (fold_left step (seq a m) (c, f)).
    Proof.
      intros Hn Hs. induction m as [|m IH]; intros a c f.
      - split; cbn; [lia|]. intros x. unfold inb. destruct (Nat.leb_spec c x); destruct (Nat.ltb_spec x (c + 0)); cbn; try lia; reflexivity.
      - cbn [seq fold_left]. pose proof (Hs c f a) as [A B]. destruct (step (c, f) a) as [c1 f1]. cbn [fst snd] in A, B. subst c1.
        destruct (IH (S a) (c + n)%nat f1) as [A' B']. split; [rewrite A'; lia|]. intros x. rewrite B'. clear A' B'.
        unfold inb. destruct (Nat.leb_spec (c + n) x) as [L|L].
        + destruct (Nat.ltb_spec x (c + n + m * n)) as [L'|L']; cbn [andb].
          * destruct (Nat.leb_spec c x); [|lia]. destruct (Nat.ltb_spec x (c + S m * n)); [|lia]. cbn [andb].
            assert (E : (x - c = (x - (c + n)) + 1 * n)%nat) by lia. rewrite E, Nat.div_add, Nat.mod_add by lia.
            rewrite B. unfold inb. destruct (Nat.ltb_spec x (c + n)); [lia|]. rewrite andb_false_r.
            replace (a + ((x - (c + n)) / n + 1))%nat with (S a + (x - (c + n)) / n)%nat by lia. reflexivity.
          * destruct (Nat.ltb_spec x (c + S m * n)); [lia|]. rewrite andb_false_r. rewrite B. unfold inb.
            destruct (Nat.ltb_spec x (c + n)); [lia|]. rewrite andb_false_r. reflexivity.
        + cbn [andb]. rewrite B. unfold inb. destruct (Nat.leb_spec c x); cbn [andb]; [|reflexivity].
          destruct (Nat.ltb_spec x (c + n)); [|lia]. destruct (Nat.ltb_spec x (c + S m * n)); [|lia].
          rewrite Nat.div_small, Nat.mod_small by lia. rewrite Nat.add_0_r. reflexivity.
    Qed.
    Lemma stepsto_ext c n n' g g' f r : n = n' -> (forall o v, (o < n)%nat -> g o v = g' o v) -> stepsto c n g f r -> stepsto c n' g' f r.
    Proof.
      intros <- H [A B]. split; [exact A|]. intros x. rewrite B. unfold inb.
      destruct (Nat.leb_spec c x); cbn [andb]; [|reflexivity]. destruct (Nat.ltb_spec x (c + n)); [|reflexivity]. apply H. lia.
    Qed.
    Lemma single c f (v : K) g : g 0%nat (f c) = v -> stepsto c 1 g f ((c + 1)%nat, upd K f c v).
    Proof.
      intros E. split; [reflexivity|]. intros x. cbn [snd]. unfold upd, inb. destruct (Nat.eqb_spec x c) as [->|N].
      - rewrite Nat.leb_refl. destruct (Nat.ltb_spec c (c + 1)); [|lia]. cbn [andb]. rewrite Nat.sub_diag. auto.
      - destruct (Nat.leb_spec c x); cbn [andb]; [|reflexivity]. destruct (Nat.ltb_spec x (c + 1)); [lia|]. reflexivity.
    Qed.
    Lemma block m (h : nat -> K -> K) a c f :
      stepsto c m (fun o v => h (a + o)%nat v) f
        (fold_left (fun (s : nat * (nat -> K)) j => ((fst s + 1)%nat, upd K (snd s) (fst s) (h j (snd s (fst s))))) (seq a m) (c, f)).
    Proof.
      eapply stepsto_ext; [apply Nat.mul_1_r| |apply (pass _ 1%nat (fun k _ v => h k v) ltac:(lia))].
      - intros o v _. cbv beta. rewrite Nat.div_1_r. reflexivity.
      - intros c0 f0 k. cbn [fst snd]. apply (single c0 f0 (h k (f0 c0)) (fun _ v => h k v)). reflexivity.
    Qed.
    Lemma eig_spec lx ly lz l0 i j k : (i < Nx)%nat -> (j < Ny)%nat -> (k < Nz)%nat ->
      grid (eigval_Lap_3D K add Nx Ny Nz lx ly lz l0) i j k = add (add (lx i) (ly j)) (lz k).
    Proof.
      intros Hi Hj Hk. unfold eigval_Lap_3D. cbv zeta.
      set (p1 := fold_left _ (seq 0%nat (Ny * Nz)) (0%nat, l0)).
      assert (S1 : stepsto 0%nat (Ny * Nz * Nx) (fun o _ => lx (o mod Nx)) l0 p1).
      { unfold p1. eapply stepsto_ext; [reflexivity| |apply (pass _ Nx (fun _ o _ => lx o) Px)].
        - intros o v _. reflexivity.
        - intros c f m. eapply stepsto_ext; [reflexivity| |apply (block Nx (fun j _ => lx j) 0%nat c f)]. intros; reflexivity. }
      clearbody p1. destruct S1 as [_ S1].
      set (p2 := fold_left _ (seq 0%nat Nz) (0%nat, snd p1)).
      assert (S2 : stepsto 0%nat (Nz * (Ny * Nx)) (fun o v => add v (ly ((o mod (Ny * Nx)) / Nx))) (snd p1) p2).
      { unfold p2. eapply stepsto_ext; [reflexivity| |apply (pass _ (Ny * Nx)%nat (fun _ o v => add v (ly (o / Nx))) ltac:(nia))].
        - intros o v _. reflexivity.
        - intros c f m. eapply stepsto_ext; [reflexivity| |apply (pass _ Nx (fun j _ v => add v (ly j)) Px)].
          + intros o v _. reflexivity.
          + intros c' f' j'. eapply stepsto_ext; [reflexivity| |apply (block Nx (fun _ v => add v (ly j')) 0%nat c' f')]. intros; reflexivity. }
      clearbody p2. destruct S2 as [_ S2].
      set (p3 := fold_left _ (seq 0%nat Nz) (0%nat, snd p2)).
      assert (S3 : stepsto 0%nat (Nz * (Ny * Nx)) (fun o v => add v (lz (o / (Ny * Nx)))) (snd p2) p3).
      { unfold p3. eapply stepsto_ext; [reflexivity| |apply (pass _ (Ny * Nx)%nat (fun k _ v => add v (lz k)) ltac:(nia))].
        - intros o v _. reflexivity.
        - intros c f m. eapply stepsto_ext; [reflexivity| |apply (block (Ny * Nx)%nat (fun _ v => add v (lz m)) 0%nat c f)]. intros; reflexivity. }
      clearbody p3. destruct S3 as [_ S3].
      unfold grid. set (x := (k * NxNy + (i + Nx * j))%nat).
      assert (Hxy : (i + Nx * j < Ny * Nx)%nat) by nia.
      assert (Hx : (x < Nz * (Ny * Nx))%nat).
      { unfold x. assert ((k + 1) * (Ny * Nx) <= Nz * (Ny * Nx))%nat by (apply Nat.mul_le_mono_r; lia). lia. }
      assert (B1 : inb 0%nat (Nz * (Ny * Nx)) x = true) by (unfold inb; apply Nat.ltb_lt; lia).
      assert (B2 : inb 0%nat (Ny * Nz * Nx) x = true) by (unfold inb; apply Nat.ltb_lt; lia).
      rewrite S3, B1, S2, B1, S1, B2. rewrite Nat.sub_0_r.
      assert (E1 : (x mod Nx = i)%nat).
      { unfold x. replace (k * NxNy + (i + Nx * j))%nat with (i + Nx * (k * Ny + j))%nat by lia. apply idx_mod; exact Hi. }
      assert (E2 : (x mod (Ny * Nx) = i + Nx * j)%nat).
      { unfold x. replace (k * NxNy + (i + Nx * j))%nat with ((i + Nx * j) + (Ny * Nx) * k)%nat by lia. apply idx_mod; exact Hxy. }
      assert (E3 : (x / (Ny * Nx) = k)%nat).
      { unfold x. replace (k * NxNy + (i + Nx * j))%nat with ((i + Nx * j) + (Ny * Nx) * k)%nat by lia. apply idx_div; exact Hxy. }
      rewrite E1, E2, E3, idx_div by exact Hi. reflexivity.
    Qed.
  End Dims.
End Ring.
