{
"C16": {"note": "Value and multiset preservation and the strict-weak-order requirement are proved; the canonical-form clause is refuted (comparator prefactor.hpp 68-76 compares a.b with b.a, so deltas with equal first index tie); only the first indices are canonical."}
}
