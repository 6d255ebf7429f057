.lia.cache
.nia.cache
.nra.cache
__pycache__/
