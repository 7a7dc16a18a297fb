.lia.cache
.nia.cache
__pycache__/
.nra.cache
