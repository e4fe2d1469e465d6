{
 "claims": [
  {
   "property": "C01",
   "status": "proved",
   "theorems": [
    "C01_gcd"
   ],
   "note": ""
  },
  {
   "property": "C02",
   "status": "proved",
   "theorems": [
    "C02_lcm"
   ],
   "note": ""
  },
  {
   "property": "C03",
   "status": "proved",
   "theorems": [
    "C03_lcm_zero_refuted"
   ],
   "note": "The claim one would expect is false of the code; the statement records the exact behaviour and the _refuted theorem proves it."
  },
  {
   "property": "C04",
   "status": "proved",
   "theorems": [
    "C04_factorial"
   ],
   "note": ""
  },
  {
   "property": "C05",
   "status": "proved",
   "theorems": [
    "C05_factorial_wraps_refuted",
    "C05_factorial_negative_refuted"
   ],
   "note": "The claim one would expect is false of the code; the statement records the exact behaviour and the _refuted theorem proves it."
  },
  {
   "property": "C06",
   "status": "proved",
   "theorems": [
    "C06_binomial"
   ],
   "note": ""
  },
  {
   "property": "C07",
   "status": "proved",
   "theorems": [
    "C07_pow_int"
   ],
   "note": "For bases of at least int width; exponent max is excluded, see C11."
  },
  {
   "property": "C08",
   "status": "proved",
   "theorems": [
    "C08_pow_int_neg",
    "C08_pow_zero_neg"
   ],
   "note": "Exponents min and -max of the exponent type are excluded; see C11."
  },
  {
   "property": "C09",
   "status": "proved",
   "theorems": [
    "C09_pow_accurate",
    "C09_pow_accurate_neg"
   ],
   "note": ""
  },
  {
   "property": "C10",
   "status": "proved",
   "theorems": [
    "C10_pow_small"
   ],
   "note": ""
  },
  {
   "property": "C11",
   "status": "proved",
   "theorems": [
    "C11_pow_flt_extreme_refuted",
    "C11_pow_max_refuted",
    "C11_pow_min_refuted"
   ],
   "note": "The claim one would expect is false of the code; the statement records the exact behaviour and the _refuted theorem proves it."
  },
  {
   "property": "C12",
   "status": "proved",
   "theorems": [
    "C12_abs_int",
    "C12_abs_int_min",
    "C12_sgn_int"
   ],
   "note": "Includes the exact behaviour at the most negative value."
  },
  {
   "property": "C13",
   "status": "proved",
   "theorems": [
    "C13_max_int",
    "C13_min_int"
   ],
   "note": ""
  },
  {
   "property": "C14",
   "status": "proved",
   "theorems": [
    "C14_max_mixed_refuted",
    "C14_min_mixed_refuted"
   ],
   "note": "The claim one would expect is false of the code; the statement records the exact behaviour and the _refuted theorem proves it."
  },
  {
   "property": "C15",
   "status": "proved",
   "theorems": [
    "C15_floor",
    "C15_floor_nonfinite"
   ],
   "note": ""
  },
  {
   "property": "C16",
   "status": "proved",
   "theorems": [
    "C16_ceil",
    "C16_ceil_nonfinite"
   ],
   "note": ""
  },
  {
   "property": "C17",
   "status": "proved",
   "theorems": [
    "C17_trunc",
    "C17_trunc_nonfinite"
   ],
   "note": ""
  },
  {
   "property": "C18",
   "status": "proved",
   "theorems": [
    "C18_round",
    "C18_round_nonfinite"
   ],
   "note": ""
  },
  {
   "property": "C19",
   "status": "proved",
   "theorems": [
    "C19_subnormal_refuted"
   ],
   "note": "The claim one would expect is false of the code; the statement records the exact behaviour and the _refuted theorem proves it."
  },
  {
   "property": "C20",
   "status": "proved",
   "theorems": [
    "C20_rounding_integral"
   ],
   "note": ""
  },
  {
   "property": "C21",
   "status": "proved",
   "theorems": [
    "C21_fmod"
   ],
   "note": ""
  },
  {
   "property": "C22",
   "status": "proved",
   "theorems": [
    "C22_fmod_bound_refuted"
   ],
   "note": "The claim one would expect is false of the code; the statement records the exact behaviour and the _refuted theorem proves it."
  },
  {
   "property": "C23",
   "status": "proved",
   "theorems": [
    "C23_abs_flt",
    "C23_sgn_flt",
    "C23_copysign",
    "C23_copysign_flt"
   ],
   "note": ""
  },
  {
   "property": "C24",
   "status": "proved",
   "theorems": [
    "C24_max_flt",
    "C24_min_flt",
    "C24_widening"
   ],
   "note": ""
  },
  {
   "property": "C25",
   "status": "proved",
   "theorems": [
    "C25_max_nan_refuted"
   ],
   "note": "The claim one would expect is false of the code; the statement records the exact behaviour and the _refuted theorem proves it."
  },
  {
   "property": "C26",
   "status": "proved",
   "theorems": [
    "C26_nan_unary",
    "C26_nan_multi",
    "C26_nan_pow_base"
   ],
   "note": ""
  },
  {
   "property": "C27",
   "status": "proved",
   "theorems": [
    "C27_domain_negative",
    "C27_domain_one",
    "C27_domain_log1p",
    "C27_domain_acosh",
    "C27_domain_pow",
    "C27_domain_incomplete",
    "C27_domain_lmgamma",
    "C27_domain_tgamma"
   ],
   "note": ""
  },
  {
   "property": "C28",
   "status": "proved",
   "theorems": [
    "C28_infinity",
    "C28_half_pi",
    "C28_pi",
    "C28_hypot_inf",
    "C28_tiny",
    "C28_tiny_nonneg",
    "C28_incomplete_gamma_zero",
    "C28_inverse_edges",
    "C28_one"
   ],
   "note": ""
  },
  {
   "property": "C29",
   "status": "proved",
   "theorems": [
    "C29_total_unary",
    "C29_total_binary",
    "C29_lbeta_integral_refuted"
   ],
   "note": "Positive theorem on the stated domain; the _refuted theorem proves the behaviour outside it."
  },
  {
   "property": "C30",
   "status": "proved",
   "theorems": [
    "C30_exp_total",
    "C30_exp_large_refuted"
   ],
   "note": "Positive theorem on the stated domain; the _refuted theorem proves the behaviour outside it."
  },
  {
   "property": "C31",
   "status": "proved",
   "theorems": [
    "C31_depth"
   ],
   "note": ""
  },
  {
   "property": "C32",
   "status": "proved",
   "theorems": [
    "C32_sin_range",
    "C32_cos_range"
   ],
   "note": ""
  },
  {
   "property": "C33",
   "status": "proved",
   "theorems": [
    "C33_odd"
   ],
   "note": ""
  },
  {
   "property": "C34",
   "status": "proved",
   "theorems": [
    "C34_even"
   ],
   "note": ""
  },
  {
   "property": "C35",
   "status": "proved",
   "theorems": [
    "C35_asinh_odd_refuted"
   ],
   "note": "The claim one would expect is false of the code; the statement records the exact behaviour and the _refuted theorem proves it."
  },
  {
   "property": "C36",
   "status": "proved",
   "theorems": [
    "C36_beta_symmetric"
   ],
   "note": ""
  },
  {
   "property": "C37",
   "status": "proved",
   "theorems": [
    "C37_hypot_symmetric_refuted"
   ],
   "note": "The claim one would expect is false of the code; the statement records the exact behaviour and the _refuted theorem proves it."
  },
  {
   "property": "C38",
   "status": "proved",
   "theorems": [
    "C38_cxx11_cxx14_unary",
    "C38_cxx11_cxx14_multi",
    "C38_cxx11_cxx14_atan"
   ],
   "note": ""
  },
  {
   "property": "C39",
   "status": "proved",
   "theorems": [
    "C39_atan_cxx11_cxx14_refuted"
   ],
   "note": "The claim one would expect is false of the code; the statement records the exact behaviour and the _refuted theorem proves it."
  },
  {
   "property": "C40",
   "status": "proved",
   "theorems": [
    "C40_sqrt_accurate",
    "C40_sqrt_accurate_large"
   ],
   "note": ""
  },
  {
   "property": "C41",
   "status": "proved",
   "theorems": [
    "C41_sqrt_tiny_refuted"
   ],
   "note": "The claim one would expect is false of the code; the statement records the exact behaviour and the _refuted theorem proves it."
  },
  {
   "property": "C42",
   "status": "proved",
   "theorems": [
    "C42_exp_half",
    "C42_exp_small",
    "C42_exp_pos",
    "C42_exp_neg"
   ],
   "note": ""
  },
  {
   "property": "C43",
   "status": "proved",
   "theorems": [
    "C43_exp_range"
   ],
   "note": ""
  },
  {
   "property": "C44",
   "status": "proved",
   "theorems": [
    "C44_log_accurate",
    "C44_log_integer"
   ],
   "note": ""
  },
  {
   "property": "C45",
   "status": "proved",
   "theorems": [
    "C45_log_small_refuted",
    "C45_log_small_between_powers"
   ],
   "note": "Positive theorem on the stated domain; the _refuted theorem proves the behaviour outside it."
  },
  {
   "property": "C46",
   "status": "proved",
   "theorems": [
    "C46_log_integral",
    "C46_log_negative_integral_refuted"
   ],
   "note": "Positive theorem on the stated domain; the _refuted theorem proves the behaviour outside it."
  },
  {
   "property": "C47",
   "status": "proved",
   "theorems": [
    "C47_integral_unary",
    "C47_integral_binary"
   ],
   "note": ""
  },
  {
   "property": "C48",
   "status": "proved",
   "theorems": [
    "C48_atan_accurate",
    "C48_atan_accurate_small",
    "C48_atan_bounded"
   ],
   "note": ""
  },
  {
   "property": "C49",
   "status": "proved",
   "theorems": [
    "C49_tan_accurate",
    "C49_tan_accurate_wide",
    "C49_sin_accurate",
    "C49_sin_accurate_wide",
    "C49_cos_accurate",
    "C49_cos_accurate_wide"
   ],
   "note": ""
  },
  {
   "property": "C50",
   "status": "proved",
   "theorems": [
    "C50_tanh_range_refuted"
   ],
   "note": "The claim one would expect is false of the code; the statement records the exact behaviour and the _refuted theorem proves it."
  },
  {
   "property": "C51",
   "status": "proved",
   "theorems": [
    "C51_tanh_accurate",
    "C51_tanh_accurate_wide",
    "C51_tanh_accurate_25"
   ],
   "note": ""
  },
  {
   "property": "C52",
   "status": "proved",
   "theorems": [
    "C52_hypot_overflow_refuted"
   ],
   "note": "The claim one would expect is false of the code; the statement records the exact behaviour and the _refuted theorem proves it."
  },
  {
   "property": "C53",
   "status": "proved",
   "theorems": [
    "C53_atan2_origin",
    "C53_atan2_axis",
    "C53_atan2_quadrants",
    "C53_atan2_negzero_refuted"
   ],
   "note": "Positive theorem on the stated domain; the _refuted theorem proves the behaviour outside it."
  },
  {
   "property": "C54",
   "status": "proved",
   "theorems": [
    "C54_acos_reflect"
   ],
   "note": ""
  },
  {
   "property": "C55",
   "status": "proved",
   "theorems": [
    "C55_inv_sqrt_accurate"
   ],
   "note": ""
  },
  {
   "property": "C56",
   "status": "proved",
   "theorems": [
    "C56_inv_sqrt_extreme_refuted"
   ],
   "note": "The claim one would expect is false of the code; the statement records the exact behaviour and the _refuted theorem proves it."
  },
  {
   "property": "C57",
   "status": "proved",
   "theorems": [
    "C57_hypot_accurate",
    "C57_hypot_accurate_any"
   ],
   "note": ""
  },
  {
   "property": "C58",
   "status": "proved",
   "theorems": [
    "C58_log2_accurate",
    "C58_log10_accurate"
   ],
   "note": ""
  },
  {
   "property": "C59",
   "status": "proved",
   "theorems": [
    "C59_log10_small_refuted"
   ],
   "note": "The claim one would expect is false of the code; the statement records the exact behaviour and the _refuted theorem proves it."
  },
  {
   "property": "C60",
   "status": "proved",
   "theorems": [
    "C60_log1p_small",
    "C60_log1p_absolute"
   ],
   "note": ""
  },
  {
   "property": "C61",
   "status": "proved",
   "theorems": [
    "C61_log1p_relative_refuted"
   ],
   "note": "The claim one would expect is false of the code; the statement records the exact behaviour and the _refuted theorem proves it."
  },
  {
   "property": "C62",
   "status": "proved",
   "theorems": [
    "C62_expm1_small",
    "C62_expm1_half",
    "C62_expm1_pos",
    "C62_expm1_neg"
   ],
   "note": ""
  },
  {
   "property": "C63",
   "status": "proved",
   "theorems": [
    "C63_expm1_relative_refuted"
   ],
   "note": "The claim one would expect is false of the code; the statement records the exact behaviour and the _refuted theorem proves it."
  },
  {
   "property": "C64",
   "status": "proved",
   "theorems": [
    "C64_pow_real_accurate",
    "C64_pow_integer_base"
   ],
   "note": ""
  },
  {
   "property": "C65",
   "status": "proved",
   "theorems": [
    "C65_pow_small_base_refuted"
   ],
   "note": "The claim one would expect is false of the code; the statement records the exact behaviour and the _refuted theorem proves it."
  },
  {
   "property": "C66",
   "status": "proved",
   "theorems": [
    "C66_cosh_small",
    "C66_cosh_accurate"
   ],
   "note": ""
  },
  {
   "property": "C67",
   "status": "proved",
   "theorems": [
    "C67_sinh_small",
    "C67_sinh_mid",
    "C67_sinh_far"
   ],
   "note": ""
  },
  {
   "property": "C68",
   "status": "proved",
   "theorems": [
    "C68_sinh_tiny_refuted"
   ],
   "note": "The claim one would expect is false of the code; the statement records the exact behaviour and the _refuted theorem proves it."
  },
  {
   "property": "C69",
   "status": "proved",
   "theorems": [
    "C69_asin_accurate"
   ],
   "note": ""
  },
  {
   "property": "C70",
   "status": "proved",
   "theorems": [
    "C70_acos_accurate",
    "C70_acos_absolute"
   ],
   "note": ""
  },
  {
   "property": "C71",
   "status": "proved",
   "theorems": [
    "C71_acos_near_one_refuted"
   ],
   "note": "The claim one would expect is false of the code; the statement records the exact behaviour and the _refuted theorem proves it."
  },
  {
   "property": "C72",
   "status": "proved",
   "theorems": [
    "C72_atan2_right",
    "C72_atan2_left"
   ],
   "note": ""
  },
  {
   "property": "C73",
   "status": "proved",
   "theorems": [
    "C73_asinh_accurate",
    "C73_asinh_relative"
   ],
   "note": ""
  },
  {
   "property": "C74",
   "status": "proved",
   "theorems": [
    "C74_asinh_tiny_refuted"
   ],
   "note": "The claim one would expect is false of the code; the statement records the exact behaviour and the _refuted theorem proves it."
  },
  {
   "property": "C75",
   "status": "proved",
   "theorems": [
    "C75_acosh_accurate",
    "C75_acosh_relative"
   ],
   "note": ""
  },
  {
   "property": "C76",
   "status": "proved",
   "theorems": [
    "C76_acosh_near_one_refuted"
   ],
   "note": "The claim one would expect is false of the code; the statement records the exact behaviour and the _refuted theorem proves it."
  },
  {
   "property": "C77",
   "status": "proved",
   "theorems": [
    "C77_atanh_accurate",
    "C77_atanh_negative"
   ],
   "note": ""
  },
  {
   "property": "C78",
   "status": "proved",
   "theorems": [
    "C78_atanh_tiny_refuted"
   ],
   "note": "The claim one would expect is false of the code; the statement records the exact behaviour and the _refuted theorem proves it."
  },
  {
   "property": "C79",
   "status": "proved",
   "theorems": [
    "C79_erf_accurate",
    "C79_erf_large"
   ],
   "note": ""
  },
  {
   "property": "C80",
   "status": "proved",
   "theorems": [
    "C80_erf_range"
   ],
   "note": ""
  },
  {
   "property": "C81",
   "status": "proved",
   "theorems": [
    "C81_erf_digits_refuted"
   ],
   "note": "The claim one would expect is false of the code; the statement records the exact behaviour and the _refuted theorem proves it."
  },
  {
   "property": "C82",
   "status": "proved",
   "theorems": [
    "C82_erf_monotone_refuted"
   ],
   "note": "The claim one would expect is false of the code; the statement records the exact behaviour and the _refuted theorem proves it."
  },
  {
   "property": "C83",
   "status": "proved",
   "theorems": [
    "C83_erf_large_refuted"
   ],
   "note": "The claim one would expect is false of the code; the statement records the exact behaviour and the _refuted theorem proves it."
  },
  {
   "property": "C84",
   "status": "proved",
   "theorems": [
    "C84_lgamma_accurate",
    "C84_lgamma_accurate_small"
   ],
   "note": ""
  },
  {
   "property": "C85",
   "status": "proved",
   "theorems": [
    "C85_lgamma_finite_refuted"
   ],
   "note": "The claim one would expect is false of the code; the statement records the exact behaviour and the _refuted theorem proves it."
  },
  {
   "property": "C86",
   "status": "proved",
   "theorems": [
    "C86_gamma_infinity_refuted"
   ],
   "note": "The claim one would expect is false of the code; the statement records the exact behaviour and the _refuted theorem proves it."
  },
  {
   "property": "C87",
   "status": "proved",
   "theorems": [
    "C87_tgamma_accurate",
    "C87_tgamma_accurate_small"
   ],
   "note": ""
  },
  {
   "property": "C88",
   "status": "proved",
   "theorems": [
    "C88_tgamma_small_refuted"
   ],
   "note": "The claim one would expect is false of the code; the statement records the exact behaviour and the _refuted theorem proves it."
  },
  {
   "property": "C89",
   "status": "proved",
   "theorems": [
    "C89_factorial_flt_accurate"
   ],
   "note": ""
  },
  {
   "property": "C90",
   "status": "proved",
   "theorems": [
    "C90_factorial_flt_exact_refuted"
   ],
   "note": "The claim one would expect is false of the code; the statement records the exact behaviour and the _refuted theorem proves it."
  },
  {
   "property": "C91",
   "status": "proved",
   "theorems": [
    "C91_lbeta_accurate"
   ],
   "note": ""
  },
  {
   "property": "C92",
   "status": "proved",
   "theorems": [
    "C92_beta_accurate"
   ],
   "note": ""
  },
  {
   "property": "C93",
   "status": "proved",
   "theorems": [
    "C93_beta_int_accurate"
   ],
   "note": ""
  },
  {
   "property": "C94",
   "status": "proved",
   "theorems": [
    "C94_beta_int_defined_refuted"
   ],
   "note": "The claim one would expect is false of the code; the statement records the exact behaviour and the _refuted theorem proves it."
  },
  {
   "property": "C95",
   "status": "proved",
   "theorems": [
    "C95_log_binomial_coef_accurate",
    "C95_log_binomial_coef_int_accurate",
    "C95_log_binomial_coef_symmetric",
    "C95_log_binomial_coef_symmetric_flt"
   ],
   "note": ""
  },
  {
   "property": "C96",
   "status": "proved",
   "theorems": [
    "C96_lmgamma_accurate"
   ],
   "note": ""
  },
  {
   "property": "C97",
   "status": "proved",
   "theorems": [
    "C97_incomplete_gamma_range_refuted"
   ],
   "note": "The claim one would expect is false of the code; the statement records the exact behaviour and the _refuted theorem proves it."
  },
  {
   "property": "C98",
   "status": "proved",
   "theorems": [
    "C98_incomplete_gamma_monotone_refuted"
   ],
   "note": "The claim one would expect is false of the code; the statement records the exact behaviour and the _refuted theorem proves it."
  },
  {
   "property": "C99",
   "status": "proved",
   "theorems": [
    "C99_incomplete_gamma_accurate_refuted",
    "C99_incomplete_gamma_flat_refuted"
   ],
   "note": "The claim one would expect is false of the code; the statement records the exact behaviour and the _refuted theorem proves it."
  },
  {
   "property": "C100",
   "status": "proved",
   "theorems": [
    "C100_incomplete_gamma_inv_total_refuted"
   ],
   "note": "The claim one would expect is false of the code; the statement records the exact behaviour and the _refuted theorem proves it."
  },
  {
   "property": "C101",
   "status": "proved",
   "theorems": [
    "C101_incomplete_beta_inv_total_refuted"
   ],
   "note": "The claim one would expect is false of the code; the statement records the exact behaviour and the _refuted theorem proves it."
  },
  {
   "property": "C102",
   "status": "proved",
   "theorems": [
    "C102_incomplete_beta_domain_refuted"
   ],
   "note": "The claim one would expect is false of the code; the statement records the exact behaviour and the _refuted theorem proves it."
  },
  {
   "property": "C103",
   "status": "proved",
   "theorems": [
    "C103_tgamma_negative_accurate"
   ],
   "note": ""
  },
  {
   "property": "C104",
   "status": "proved",
   "theorems": [
    "C104_erf_inv_accurate",
    "C104_erf_inv_zero"
   ],
   "note": ""
  },
  {
   "property": "C105",
   "status": "proved",
   "theorems": [
    "C105_incomplete_gamma_accurate"
   ],
   "note": ""
  },
  {
   "property": "C106",
   "status": "proved",
   "theorems": [
    "C106_incomplete_gamma_upper_accurate"
   ],
   "note": ""
  },
  {
   "property": "C107",
   "status": "proved",
   "theorems": [
    "C107_incomplete_gamma_small_range_refuted"
   ],
   "note": "The claim one would expect is false of the code; the statement records the exact behaviour and the _refuted theorem proves it."
  },
  {
   "property": "C108",
   "status": "proved",
   "theorems": [
    "C108_incomplete_beta_accurate"
   ],
   "note": ""
  },
  {
   "property": "C109",
   "status": "proved",
   "theorems": [
    "C109_incomplete_beta_accurate_refuted"
   ],
   "note": "The claim one would expect is false of the code; the statement records the exact behaviour and the _refuted theorem proves it."
  },
  {
   "property": "C110",
   "status": "proved",
   "theorems": [
    "C110_incomplete_beta_absolute"
   ],
   "note": ""
  },
  {
   "property": "C111",
   "status": "proved",
   "theorems": [
    "C111_incomplete_beta_nearly_monotone"
   ],
   "note": ""
  },
  {
   "property": "C112",
   "status": "proved",
   "theorems": [
    "C112_sin_large",
    "C112_cos_large",
    "C112_sin_integer",
    "C112_cos_integer"
   ],
   "note": ""
  },
  {
   "property": "C113",
   "status": "proved",
   "theorems": [
    "C113_tan_backward"
   ],
   "note": ""
  },
  {
   "property": "C114",
   "status": "proved",
   "theorems": [
    "C114_unit_circle"
   ],
   "note": ""
  },
  {
   "property": "C115",
   "status": "proved",
   "theorems": [
    "C115_cos_far_refuted"
   ],
   "note": "The claim one would expect is false of the code; the statement records the exact behaviour and the _refuted theorem proves it."
  },
  {
   "property": "C116",
   "status": "proved",
   "theorems": [
    "C116_sqrt_square_refuted",
    "C116_sqrt_integer_refuted"
   ],
   "note": "The claim one would expect is false of the code; the statement records the exact behaviour and the _refuted theorem proves it."
  },
  {
   "property": "C117",
   "status": "proved",
   "theorems": [
    "C117_log2_power_refuted",
    "C117_log2_integer_refuted",
    "C117_log10_power_refuted",
    "C117_pow_one_refuted",
    "C117_pow_two_refuted"
   ],
   "note": "The claim one would expect is false of the code; the statement records the exact behaviour and the _refuted theorem proves it."
  },
  {
   "property": "C118",
   "status": "proved",
   "theorems": [
    "C118_atan_monotone_refuted",
    "C118_sin_monotone_refuted",
    "C118_tanh_monotone_refuted"
   ],
   "note": "The claim one would expect is false of the code; the statement records the exact behaviour and the _refuted theorem proves it."
  },
  {
   "property": "C119",
   "status": "proved",
   "theorems": [
    "C119_exp_of_log",
    "C119_log_of_exp"
   ],
   "note": ""
  },
  {
   "property": "C120",
   "status": "proved",
   "theorems": [
    "C120_sin_of_asin"
   ],
   "note": ""
  },
  {
   "property": "C121",
   "status": "proved",
   "theorems": [
    "C121_erf_of_erf_inv"
   ],
   "note": ""
  },
  {
   "property": "C122",
   "status": "proved",
   "theorems": [
    "C122_tgamma_recurrence"
   ],
   "note": ""
  },
  {
   "property": "C123",
   "status": "proved",
   "theorems": [
    "C123_pow_agree"
   ],
   "note": ""
  },
  {
   "property": "C124",
   "status": "proved",
   "theorems": [
    "C124_infinite_unary_refuted",
    "C124_atan2_infinite_refuted",
    "C124_fmod_infinite_refuted",
    "C124_pow_special_refuted"
   ],
   "note": "The claim one would expect is false of the code; the statement records the exact behaviour and the _refuted theorem proves it."
  },
  {
   "property": "C125",
   "status": "proved",
   "theorems": [
    "C125_hyperbolic_total",
    "C125_hyperbolic_large_refuted",
    "C125_pow_large_refuted"
   ],
   "note": "Positive theorem on the stated domain; the _refuted theorem proves the behaviour outside it."
  },
  {
   "property": "C126",
   "status": "proved",
   "theorems": [
    "C126_gcd_floating_exact",
    "C126_gcd_large_refuted"
   ],
   "note": "Positive theorem on the stated domain; the _refuted theorem proves the behaviour outside it."
  },
  {
   "property": "C127",
   "status": "proved",
   "theorems": [
    "C127_lcm_floating_rounded",
    "C127_lcm_zeros_refuted"
   ],
   "note": "Positive theorem on the stated domain; the _refuted theorem proves the behaviour outside it."
  },
  {
   "property": "C128",
   "status": "proved",
   "theorems": [
    "C128_lcm_mixed_signedness_refuted"
   ],
   "note": "The claim one would expect is false of the code; the statement records the exact behaviour and the _refuted theorem proves it."
  },
  {
   "property": "C129",
   "status": "proved",
   "theorems": [
    "C129_binomial_floating_rounded",
    "C129_binomial_floating_wraps_refuted"
   ],
   "note": "Positive theorem on the stated domain; the _refuted theorem proves the behaviour outside it."
  },
  {
   "property": "C130",
   "status": "proved",
   "theorems": [
    "C130_binomial_signed_or_ub",
    "C130_binomial_unsigned_wraps_refuted",
    "C130_binomial_narrow_converts_refuted"
   ],
   "note": "Positive theorem on the stated domain; the _refuted theorem proves the behaviour outside it."
  },
  {
   "property": "C131",
   "status": "proved",
   "theorems": [
    "C131_binomial_negative_lower_zero",
    "C131_binomial_negative_upper_refuted"
   ],
   "note": "Positive theorem on the stated domain; the _refuted theorem proves the behaviour outside it."
  },
  {
   "property": "C132",
   "status": "proved",
   "theorems": [
    "C132_incomplete_gamma_inv_accurate"
   ],
   "note": ""
  },
  {
   "property": "C133",
   "status": "proved",
   "theorems": [
    "C133_incomplete_gamma_round_trip"
   ],
   "note": ""
  },
  {
   "property": "C134",
   "status": "proved",
   "theorems": [
    "C134_rounding_relations",
    "C134_rounding_monotone"
   ],
   "note": ""
  },
  {
   "property": "C135",
   "status": "proved",
   "theorems": [
    "C135_sqrt_squared",
    "C135_sqrt_inv_sqrt"
   ],
   "note": ""
  },
  {
   "property": "C136",
   "status": "proved",
   "theorems": [
    "C136_tan_atan",
    "C136_atan_tan"
   ],
   "note": ""
  },
  {
   "property": "C137",
   "status": "proved",
   "theorems": [
    "C137_hyperbola",
    "C137_hyperbola_wide"
   ],
   "note": ""
  },
  {
   "property": "C138",
   "status": "proved",
   "theorems": [
    "C138_lmgamma_floating_order",
    "C138_lmgamma_non_integer_order",
    "C138_lmgamma_order_below_one",
    "C138_lmgamma_nan_order_refuted"
   ],
   "note": "Positive theorem on the stated domain; the _refuted theorem proves the behaviour outside it."
  },
  {
   "property": "C139",
   "status": "proved",
   "theorems": [
    "C139_incomplete_beta_inv_integers_refuted"
   ],
   "note": "The claim one would expect is false of the code; the statement records the exact behaviour and the _refuted theorem proves it."
  },
  {
   "property": "C140",
   "status": "proved",
   "theorems": [
    "C140_incomplete_beta_inv_uniform"
   ],
   "note": ""
  },
  {
   "property": "C141",
   "status": "proved",
   "theorems": [
    "C141_cosh_acosh",
    "C141_sinh_asinh",
    "C141_tanh_atanh"
   ],
   "note": ""
  },
  {
   "property": "C142",
   "status": "proved",
   "theorems": [
    "C142_expm1_log1p_small",
    "C142_log1p_expm1_small",
    "C142_expm1_log1p",
    "C142_log1p_expm1"
   ],
   "note": ""
  },
  {
   "property": "C143",
   "status": "proved",
   "theorems": [
    "C143_log_product"
   ],
   "note": ""
  },
  {
   "property": "C144",
   "status": "proved",
   "theorems": [
    "C144_beta_tgamma"
   ],
   "note": ""
  },
  {
   "property": "C145",
   "status": "proved",
   "theorems": [
    "C145_incomplete_beta_of_inv",
    "C145_inv_of_incomplete_beta"
   ],
   "note": ""
  },
  {
   "property": "C146",
   "status": "proved",
   "theorems": [
    "C146_incomplete_gamma_infinity_refuted",
    "C146_round_trip_one_refuted"
   ],
   "note": "The claim one would expect is false of the code; the statement records the exact behaviour and the _refuted theorem proves it."
  },
  {
   "property": "C147",
   "status": "proved",
   "theorems": [
    "C147_incomplete_gamma_large_refuted"
   ],
   "note": "The claim one would expect is false of the code; the statement records the exact behaviour and the _refuted theorem proves it."
  },
  {
   "property": "C148",
   "status": "proved",
   "theorems": [
    "C148_tgamma_overflow",
    "C148_tgamma_huge_refuted"
   ],
   "note": "Positive theorem on the stated domain; the _refuted theorem proves the behaviour outside it."
  },
  {
   "property": "C149",
   "status": "proved",
   "theorems": [
    "C149_exponential_tails_low",
    "C149_exponential_tails_up"
   ],
   "note": ""
  },
  {
   "property": "C150",
   "status": "proved",
   "theorems": [
    "C150_asinh_sinh_mid",
    "C150_asinh_sinh_far",
    "C150_acosh_cosh",
    "C150_atanh_tanh"
   ],
   "note": ""
  },
  {
   "property": "C151",
   "status": "proved",
   "theorems": [
    "C151_asin_plus_acos"
   ],
   "note": ""
  },
  {
   "property": "C152",
   "status": "proved",
   "theorems": [
    "C152_exp_reciprocal_small",
    "C152_exp_reciprocal"
   ],
   "note": ""
  },
  {
   "property": "C153",
   "status": "proved",
   "theorems": [
    "C153_pow_half_is_sqrt"
   ],
   "note": ""
  },
  {
   "property": "C154",
   "status": "proved",
   "theorems": [
    "C154_log_tgamma_lgamma"
   ],
   "note": ""
  },
  {
   "property": "C155",
   "status": "proved",
   "theorems": [
    "C155_erf_incomplete_gamma_low",
    "C155_erf_incomplete_gamma_up",
    "C155_tgamma_half"
   ],
   "note": ""
  },
  {
   "property": "C156",
   "status": "proved",
   "theorems": [
    "C156_incomplete_beta_reflection"
   ],
   "note": ""
  },
  {
   "property": "C157",
   "status": "proved",
   "theorems": [
    "C157_double_angle"
   ],
   "note": ""
  },
  {
   "property": "C158",
   "status": "proved",
   "theorems": [
    "C158_tan_cos_sin",
    "C158_tan_cos_sin_wide"
   ],
   "note": ""
  },
  {
   "property": "C159",
   "status": "proved",
   "theorems": [
    "C159_exp_sum",
    "C159_exp_sum_far"
   ],
   "note": ""
  },
  {
   "property": "C160",
   "status": "proved",
   "theorems": [
    "C160_tanh_cosh_sinh"
   ],
   "note": ""
  },
  {
   "property": "C161",
   "status": "proved",
   "theorems": [
    "C161_pow_sum",
    "C161_pow_neg"
   ],
   "note": ""
  },
  {
   "property": "C162",
   "status": "proved",
   "theorems": [
    "C162_atan2_swap",
    "C162_atan2_mirror"
   ],
   "note": ""
  },
  {
   "property": "C163",
   "status": "proved",
   "theorems": [
    "C163_log_of_binomial_coef"
   ],
   "note": ""
  },
  {
   "property": "C164",
   "status": "proved",
   "theorems": [
    "C164_tgamma_factorial"
   ],
   "note": ""
  }
 ]
}