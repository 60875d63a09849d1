.lia.cache
.nia.cache
.*.aux
*.cache
