(** Specification of the comparison of shapes. *)
From Coq Require Import List Arith ZArith QArith Bool Permutation.
From Verif Require Import Collect_model.
Import ListNotations.
Open Scope nat_scope.

(** ** The order of lines *)
Definition near (dist : point -> point -> Q) (a b : point) : Prop := (dist a b <= 1 # 100000)%Q.
(** As many points, one near the other *)
Definition close (dist : point -> point -> Q) (a b : line) : Prop := Forall2 (near dist) a b.
(** What std::map needs of a comparison *)
Record StrictWeak {A : Type} (D : A -> Prop) (lt : A -> A -> bool) : Prop := {
  sw_irrefl : forall a, D a -> lt a a = false;
  sw_trans : forall a b c, D a -> D b -> D c -> lt a b = true -> lt b c = true -> lt a c = true;
  sw_eqv : forall a b c, D a -> D b -> D c -> lt a b = false -> lt b a = false -> lt b c = false -> lt c b = false -> lt a c = false /\ lt c a = false
}.

Section Spec.
Variable latLngLen : line -> Q.
Variable simplify : line -> Q -> line.
Variable tol : point -> Q.
Variable getSegment : line -> point -> point -> line.
Variable accFrechet frechet : line -> line -> Q -> Q.
Variable dist : point -> point -> Q.

(** ** The point of a shape at some distance *)
Inductive At (s : shape) (c : Q) : point -> Prop :=
| A_before : forall p d r, s = (p, d) :: r -> (c < d)%Q -> At s c p
| A_after : forall p d r, s = r ++ [(p, d)] -> (d <= c)%Q -> At s c p
| A_between : forall p q a b l1 l2, s = l1 ++ (p, a) :: (q, b) :: l2 -> (a <= c)%Q -> (c < b)%Q ->
    At s c ((fst p + (c - a) / (b - a) * (fst q - fst p))%Q, (snd p + (c - a) / (b - a) * (snd q - snd p))%Q).
(** Distances do not decrease. *)
Definition increasing (s : shape) : Prop := forall l1 l2 l3 p q a b, s = l1 ++ (p, a) :: l2 ++ (q, b) :: l3 -> (a <= b)%Q.
(** The segments of a shape between successive stops *)
Inductive Segs (s : shape) : list (nat * Q) -> list line -> Prop :=
| S_nil : Segs s [] []
| S_one : forall st, Segs s [st] []
| S_more : forall st1 st2 r p q segs, At s (snd st1) p -> At s (snd st2) q -> Segs s (st2 :: r) segs ->
    Segs s (st1 :: st2 :: r) (getSegment (map fst s) p q :: segs).

(** ** The comparison of one trip *)
(** The number of segments that are 100 m or more apart *)
Inductive Unmatched (segLen : Q) : list line -> list line -> nat -> Prop :=
| U_nil : Unmatched segLen [] [] 0
| U_match : forall p x y a b n, (frechet (simplify (p :: x) (tol p)) (simplify y (tol p)) segLen < 100)%Q -> Unmatched segLen a b n -> Unmatched segLen ((p :: x) :: a) (y :: b) n
| U_miss : forall p x y a b n, (100 <= frechet (simplify (p :: x) (tol p)) (simplify y (tol p)) segLen)%Q -> Unmatched segLen a b n -> Unmatched segLen ((p :: x) :: a) (y :: b) (S n).
Definition nat2Q (n : nat) : Q := inject_Z (Z.of_nat n).
(** Points are more than 1 km apart on average. *)
Definition sparse (s : shape) : Prop := s <> [] /\ (1000 < latLngLen (map fst s) / nat2Q (length s))%Q.
Definition total (l : list line) (x : Q) : Prop := (x == fold_right (fun l s => latLngLen l + s) 0 l)%Q.
Definition undefined (t : trip) : Prop := exists st, In st (tStops t) /\ (snd st < 0)%Q.
(** Trips that are compared *)
Definition comparable (k : call) : Prop := ~ undefined (kOldT k) /\ ~ undefined (kNewT k) /\ ~ sparse (kNewS k) /\ exists s, kOldS k = Some s /\ ~ sparse s.
(** The outcome: nothing, or the average distance, the number of segments that differ and the number of segments *)
Inductive Outcome (segLen : Q) (k : call) : option (Q * nat * nat) -> Prop :=
| O_skip : ~ comparable k -> Outcome segLen k None
| O_short : forall s segs len, comparable k -> kOldS k = Some s -> Segs s (tStops (kOldT k)) segs -> total segs len -> (len < 5)%Q -> Outcome segLen k None
| O_cmp : forall s p olds news len n avg, comparable k -> kOldS k = Some s -> Segs s (tStops (kOldT k)) olds -> Segs (kNewS k) (tStops (kNewT k)) news ->
    total olds len -> (5 <= len)%Q -> Unmatched segLen olds news n ->
    hd_error (concat olds) = Some p -> (avg == accFrechet (simplify (concat olds) (tol p)) (simplify (concat news) (tol p)) segLen / len)%Q ->
    Outcome segLen k (Some (avg, n, length olds)).
(** ** The report on all trips *)
Definition sumOf {A : Type} (f : A -> nat) (l : list A) : nat := fold_right (fun x s => f x + s) 0 l.
Definition skipped (o : option (Q * nat * nat)) : nat := match o with None => 1 | Some _ => 0 end.
Definition within (t : Q) (o : option (Q * nat * nat)) : nat :=
  match o with None => 0 | Some (_, n, m) => if Qlt_le_dec t (nat2Q n / nat2Q m) then 0 else 1 end.
Definition missed (o : option (Q * nat * nat)) : nat := match o with None => 0 | Some (_, n, _) => n end.
Definition avgOf (o : option (Q * nat * nat)) : Q := match o with None => 0 | Some (a, _, _) => a end.
Record Report (ks : list call) (os : list (option (Q * nat * nat))) (c : coll) : Prop := {
  rp_trips : cTrips c = length ks;
  rp_skip : cNoOrig c = sumOf skipped os;
  rp_an : cAn c = map (fun t => sumOf (within t) os) [1 # 10000; 1 # 20; 1 # 10; 1 # 5; 3 # 10; 1 # 2; 7 # 10; 9 # 10];
  rp_missed : cUnSum c = sumOf missed os;
  rp_sum : (cAccSum c == fold_right (fun o s => avgOf o + s) 0 os)%Q
}.
(** The trip and distance of each result are those of a call that was compared; the lowest is first and the highest last. *)
Definition hasResult (ks : list call) (os : list (option (Q * nat * nat))) (t : nat) (d : Q) : Prop :=
  exists i k a n m, nth_error ks i = Some k /\ nth_error os i = Some (Some (a, n, m)) /\ tId (kOldT k) = t /\ (a == d)%Q.
Record Results (ks : list call) (os : list (option (Q * nat * nat))) (l : list result) : Prop := {
  rs_from : forall r, In r l -> hasResult ks os (rTrip r) (rDist r);
  rs_all : forall t d, hasResult ks os t d -> exists r, In r l /\ rTrip r = t /\ (rDist r == d)%Q;
  rs_order : forall l1 l2 l3 a b, l = l1 ++ a :: l2 ++ b :: l3 -> (rDist a <= rDist b)%Q;
  rs_once : forall l1 l2 l3 a b, l = l1 ++ a :: l2 ++ b :: l3 -> ~ (rTrip a = rTrip b /\ (rDist a == rDist b)%Q)
}.

(** ** Hops *)
(** For every two successive stops: the distance between the stops and the length of the segment of the shape *)
Inductive HopsOf (hav : nat -> nat -> Q) (s : shape) : list (nat * Q) -> list (Q * Q) -> Prop :=
| H_nil : HopsOf hav s [] []
| H_one : forall st, HopsOf hav s [st] []
| H_more : forall st1 st2 r p q hs, At s (snd st1) p -> At s (snd st2) q -> HopsOf hav s (st2 :: r) hs ->
    HopsOf hav s (st1 :: st2 :: r) ((hav (fst st1) (fst st2), latLngLen (getSegment (map fst s) p q)) :: hs).
(** The hops of the new trips of all calls that are compared *)
Inductive AllHops (hav : nat -> nat -> Q) : list call -> list (Q * Q) -> Prop :=
| AH_nil : AllHops hav [] []
| AH_skip : forall k ks hs, ~ comparable k -> AllHops hav ks hs -> AllHops hav (k :: ks) hs
| AH_cmp : forall k ks h hs, comparable k -> HopsOf hav (kNewS k) (tStops (kNewT k)) h -> AllHops hav ks hs -> AllHops hav (k :: ks) (h ++ hs).

(** ** Lines that are compared *)
(** The simplified lines of the calls *)
Inductive Used (ks : list call) : line -> Prop :=
| Us_old : forall k s segs p, In k ks -> kOldS k = Some s -> Segs s (tStops (kOldT k)) segs -> Used ks (simplify (concat segs) (tol p))
| Us_new : forall k segs p, In k ks -> Segs (kNewS k) (tStops (kNewT k)) segs -> Used ks (simplify (concat segs) (tol p))
| Us_seg_old : forall k s segs x p, In k ks -> kOldS k = Some s -> Segs s (tStops (kOldT k)) segs -> In x segs -> Used ks (simplify x (tol p))
| Us_seg_new : forall k segs x p, In k ks -> Segs (kNewS k) (tStops (kNewT k)) segs -> In x segs -> Used ks (simplify x (tol p)).
(** Points of these lines that are nearer than the tolerance are the same. *)
Definition apart (D : line -> Prop) : Prop := forall a b p q, D a -> D b -> In p a -> In q b -> near dist p q -> p = q.
End Spec.
(** ** The median *)
Definition Median (l : list Q) (m : Q) : Prop :=
  In m l /\ exists low high, (forall x, In x low -> (x <= m)%Q) /\ (forall x, In x high -> (m <= x)%Q) /\ length low = length l / 2 /\ Permutation l (low ++ m :: high).
